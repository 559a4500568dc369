(** * L_Fit: minibatches, schedules and losses of the [fit] methods. *)

From Coq Require Import Reals List ZArith Bool Lia Lra Permutation.
From Verif Require Import Num NpList M_Utils M_Feedback M_Cont M_Offline M_Init M_NN S_Base S_Offline S_Init S_NN L_Num L_Base L_Init L_Act L_NN L_Offline L_Slate L_Reg P_Offline P_Sim.
Import ListNotations.
Open Scope R_scope.

(** ** Batches *)
Lemma chunks_nil {A} fuel b : chunks fuel b ([] : list A) = [].
Proof. destruct fuel; reflexivity. Qed.
Lemma chunks_ok {A} b : (1 <= b)%nat -> forall fuel (l : list A), (length l <= fuel)%nat ->
  concat (chunks fuel b l) = l /\ in_batches_of b (chunks fuel b l).
Proof.
  intros Hb. induction fuel as [|f IH]; intros l Hl.
  - destruct l; [|simpl in Hl; lia]. split; auto. split; [constructor|]. simpl; intros; lia.
  - destruct l as [|x l']. { split; auto. split; [constructor|]. simpl; intros; lia. }
    cbn [chunks]. set (l := x :: l') in *. assert (Hlen : (1 <= length l)%nat) by (simpl; lia).
    destruct (IH (skipn b l)) as (H1 & H2 & H3). { rewrite skipn_length. lia. }
    split; [cbn [concat]; rewrite H1; apply firstn_skipn|]. split.
    + constructor; auto. rewrite firstn_length. lia.
    + intros i Hi. destruct i as [|i]; cbn [nth]; [|apply H3; simpl in Hi; lia].
      destruct (Nat.le_gt_cases (length l) b) as [Hle|Hgt].
      * rewrite (skipn_all2 l) in Hi by auto. rewrite chunks_nil in Hi. simpl in Hi. lia.
      * rewrite firstn_length. lia.
Qed.
Lemma loader_ok {A} b (l : list A) : (1 <= b)%nat -> concat (loader b l) = l /\ in_batches_of b (loader b l).
Proof. intros H. apply chunks_ok; auto. Qed.

Lemma mod_plus x b : (1 <= b)%nat -> ((x + b) mod b = x mod b)%nat.
Proof. intros H. rewrite <- (Nat.mod_add x 1 b) by lia. f_equal. lia. Qed.

(** Sizes of the batches: full ones, then the remainder. *)
Lemma batch_sizes {A} b : forall (l : list (list A)), (1 <= b)%nat -> in_batches_of b l ->
  forall x, In x l -> length x = b \/ (length (concat l) mod b = length x)%nat.
Proof.
  intros l Hb. induction l as [|y l IH]; intros (H1 & H2) x Hx; [easy|]. inversion H1; subst.
  destruct l as [|z l].
  - destruct Hx as [->|[]]. cbn [concat]. rewrite app_nil_r. destruct (Nat.eq_dec (length x) b); auto. right. apply Nat.mod_small. lia.
  - assert (Hy : length y = b) by (apply (H2 0%nat); simpl; lia).
    assert (Hin : in_batches_of b (z :: l)) by (split; auto; intros i Hi; apply (H2 (S i)); simpl in *; lia).
    change (concat (y :: z :: l)) with (y ++ concat (z :: l)). rewrite app_length, Hy, Nat.add_comm.
    replace ((length (concat (z :: l)) + b) mod b)%nat with (length (concat (z :: l)) mod b)%nat.
    2:{ symmetry. apply mod_plus; auto. }
    destruct Hx as [<-|Hx]; auto. 
Qed.
Lemma last_batch {A} b : forall (l : list (list A)), (1 <= b)%nat -> in_batches_of b l ->
  (length (concat l) mod b <> 0)%nat -> exists x, In x l /\ length x = (length (concat l) mod b)%nat.
Proof.
  intros l Hb. induction l as [|y l IH]; intros (H1 & H2) Hm.
  - cbn [concat length] in Hm. rewrite Nat.mod_0_l in Hm by lia. lia.
  - inversion H1; subst. destruct l as [|z l].
    + exists y. split; [left; auto|]. cbn [concat] in *. rewrite app_nil_r in *.
      destruct (Nat.eq_dec (length y) b) as [E|E]; [rewrite E, Nat.mod_same in Hm by lia; lia|]. symmetry; apply Nat.mod_small; lia.
    + assert (Hy : length y = b) by (apply (H2 0%nat); simpl; lia).
      assert (Hin : in_batches_of b (z :: l)) by (split; auto; intros i Hi; apply (H2 (S i)); simpl in *; lia).
      change (concat (y :: z :: l)) with (y ++ concat (z :: l)) in *. rewrite app_length, Hy, Nat.add_comm in *.
      replace ((length (concat (z :: l)) + b) mod b)%nat with (length (concat (z :: l)) mod b)%nat in *.
      2:{ symmetry. apply mod_plus; auto. }
      destruct (IH Hin Hm) as (x & Hx & E). exists x. split; auto. right; auto.
Qed.
Lemma batch_of_one {A} b (l : list (list A)) : (1 <= b)%nat -> in_batches_of b l -> (1 <= length (concat l))%nat ->
  (exists x, In x l /\ length x = 1%nat) <-> (b = 1 \/ length (concat l) mod b = 1)%nat.
Proof.
  intros Hb Hl Hne. split.
  - intros (x & Hx & E). destruct (batch_sizes b l Hb Hl x Hx); lia.
  - intros [->|H].
    + destruct l as [|x l]; [simpl in Hne; lia|]. exists x. split; [left; auto|]. destruct Hl as (H1 & _). inversion H1; lia.
    + destruct (last_batch b l Hb Hl ltac:(lia)) as (x & Hx & E). exists x. split; auto. lia.
Qed.
Lemma batch_count {A} b : forall (l : list (list A)), (1 <= b)%nat -> in_batches_of b l -> (length l <= S ((length (concat l) - 1) / b))%nat.
Proof.
  intros l Hb. induction l as [|y l IH]; intros (H1 & H2); [simpl; lia|]. inversion H1; subst. destruct l as [|z l]; [simpl; lia|].
  assert (Hy : length y = b) by (apply (H2 0%nat); simpl; lia).
  assert (Hin : in_batches_of b (z :: l)) by (split; auto; intros i Hi; apply (H2 (S i)); simpl in *; lia).
  specialize (IH Hin). change (concat (y :: z :: l)) with (y ++ concat (z :: l)). rewrite app_length, Hy.
  assert (Hz : (1 <= length (concat (z :: l)))%nat) by (cbn [concat]; rewrite app_length; destruct Hin as (Hf & _); inversion Hf; lia).
  replace (b + length (concat (z :: l)) - 1)%nat with (length (concat (z :: l)) - 1 + 1 * b)%nat by lia.
  rewrite Nat.div_add by lia. cbn [length] in *. lia.
Qed.

(** ** Schedules *)
Lemma epochs_ok cfg n perm sh b : batch_size_ (tc_batch cfg) n = Ok b -> (1 <= n)%nat ->
  (tc_early cfg = true -> (2 <= n)%nat /\ 0 < tc_valfrac cfg < 1) ->
  Permutation perm (seq 0 n) -> (forall k v l, Permutation (sh k v l) l) ->
  exists train val epochs, epochs_of cfg n perm sh = Ok epochs /\
    Permutation (train ++ val) (seq 0 n) /\ train <> [] /\ (val = [] <-> tc_early cfg = false) /\
    data_split cfg n perm = Ok (train, val) /\
    length epochs = tc_max_iter cfg /\
    Forall (fun e => Permutation (concat (fst e)) train /\ Permutation (concat (snd e)) val /\
                     in_batches_of (Z.to_nat b) (fst e) /\ in_batches_of (Z.to_nat b) (snd e)) epochs.
Proof.
  intros Hbs Hn He Hp Hsh.
  assert (Hb : (1 <= b)%Z).
  { unfold batch_size_ in Hbs. destruct (tc_batch cfg) as [b'|].
    - unfold check_scalar_Z in Hbs. destruct (Z.ltb_spec b' 1); cbn in Hbs; [discriminate|]. injection Hbs as <-. auto.
    - injection Hbs as <-. lia. }
  assert (Hs : exists train val, data_split cfg n perm = Ok (train, val) /\ Permutation (train ++ val) (seq 0 n) /\ train <> [] /\ (val = [] <-> tc_early cfg = false)).
  { unfold data_split. destruct (tc_early cfg) eqn:E.
    - destruct (He eq_refl) as (H2 & Hf). destruct (C76_split n (tc_valfrac cfg) H2 ltac:(lra)) as (t & v & -> & Htv & Hv & Ht & _ & _ & Ht0).
      cbn [bind fst snd]. assert (t <> 0%Z) by (intros E0; apply Ht0 in E0; lra).
      assert (Hlen : length perm = n) by (rewrite (Permutation_length Hp); apply seq_length).
      eexists _, _. split; [reflexivity|].
      assert (Hlv : length (skipn (Z.to_nat t) perm) = Z.to_nat v) by (rewrite skipn_length; lia).
      rewrite (firstn_all2 (skipn (Z.to_nat t) perm)) by lia. rewrite firstn_skipn. split; auto. split.
      + intros E0. apply (f_equal (@length nat)) in E0. rewrite firstn_length in E0. simpl in E0. lia.
      + split; [|discriminate]. intros E0. rewrite E0 in Hlv. simpl in Hlv. lia.
    - unfold split_sizes. cbn [bind]. exists (seq 0 n), []. rewrite app_nil_r. repeat split; auto.
      destruct n; [lia|discriminate]. }
  destruct Hs as (train & val & Es & Hperm & Htr & Hval).
  unfold epochs_of. rewrite Hbs, Es. cbn [bind fst snd].
  replace (Nat.eqb (length train) 0) with false by (destruct train; [easy|reflexivity]).
  replace (Z.leb b 0) with false by (symmetry; apply Z.leb_gt; lia).
  rewrite andb_false_r. cbn [orb raise_if bind]. eexists train, val, _. split; [reflexivity|].
  split; auto. split; auto. split; auto. split; auto. rewrite map_length, seq_length. split; auto.
  rewrite Forall_map, Forall_forall. intros k _. cbn [fst snd].
  destruct (loader_ok (Z.to_nat b) (if tc_shuffle cfg then sh k true train else train)) as (E1 & B1); [lia|].
  destruct (loader_ok (Z.to_nat b) (if tc_shuffle cfg then sh k false val else val)) as (E2 & B2); [lia|].
  rewrite E1, E2. split; [destruct (tc_shuffle cfg); auto|]. split; [destruct (tc_shuffle cfg); auto|]. auto.
Qed.

(** ** The loop with a loss that does not raise *)
Section Total.
  Context {P : Type} (loss : P -> list nat -> res num) (update : P -> list nat -> P) (tol : num) (nic : Z).
  Variable l : P -> list nat -> num.
  Let step := fun p b => (update p b, l p b).
  Lemma train_total : forall bs (s : train_state P), (forall p b, In b bs -> loss p b = Ok (l p b)) ->
    train_batches_r loss update tol nic bs s = Ok (train_batches step tol nic bs s).
  Proof.
    induction bs as [|b bs IH]; intros s H; auto. cbn [train_batches_r train_batches]. rewrite H by (left; auto). cbn [bind]. unfold step at 1.
    destruct (Z.leb _ _); auto. apply IH. intros; apply H; right; auto.
  Qed.
  Lemma validate_total : forall bs (s : train_state P), (forall p b, In b bs -> loss p b = Ok (l p b)) ->
    validate_r loss tol nic bs s = Ok (validate l tol nic bs s).
  Proof.
    induction bs as [|b bs IH]; intros s H; auto. cbn [validate_r validate]. rewrite H by (left; auto). cbn [bind].
    destruct (Z.ltb _ _); auto. apply IH. intros; apply H; right; auto.
  Qed.
  Lemma fit_total es : forall epochs p0, (forall e p b, In e epochs -> In b (fst e) \/ In b (snd e) -> loss p b = Ok (l p b)) ->
    fit_loop_r loss update tol nic es epochs p0 = Ok (fit_loop step l tol nic es epochs p0).
  Proof.
    intros epochs p0. unfold fit_loop_r, fit_loop. generalize (mkTrain p0 0 None 0 None).
    induction epochs as [|e ep IH]; intros s H; auto. cbn [loopM fold_left].
    rewrite train_total by (intros; apply (H e); auto; left; auto). cbn [bind].
    replace (if es then validate_r loss tol nic (snd e) (train_batches step tol nic (fst e) s) else Ok (train_batches step tol nic (fst e) s))
      with (Ok (if es then validate l tol nic (snd e) (train_batches step tol nic (fst e) s) else train_batches step tol nic (fst e) s)).
    2:{ destruct es; auto. symmetry. apply validate_total. intros; apply (H e); auto. left; auto. }
    cbn [bind]. apply IH. intros; apply (H e0); auto. right; auto.
  Qed.
End Total.

(** ** Losses *)
Lemma gather_tab {A} (d : A) n f idx : Forall (fun i => (i < n)%nat) idx ->
  gather d (tab n f) idx = tab (length idx) (fun i => f (nth i idx 0%nat)).
Proof.
  intros H. unfold gather. rewrite (list_tab idx 0%nat) at 1. rewrite map_tab. apply tab_ext. intros i Hi. apply nth_tab.
  rewrite Forall_forall in H. apply H, nth_In; auto.
Qed.

Lemma map_as_tab {A B} (f : A -> B) d l : map f l = tab (length l) (fun i => f (nth i l d)).
Proof. rewrite (list_tab l d) at 1. apply map_tab. Qed.

Section Policy.
  Context {P : Type} (out : P -> arr1 -> arr1) (pi : P -> list num -> nat -> R) (n K : nat)
    (ctx : nat -> list num) (a : nat -> nat) (r p : nat -> R) (q : list num -> nat -> R) (o : objective) (lambda : option R) (lv : num) (pr vr : R).
  Hypothesis Hlv : nn_lambda o (option_map Fin lambda) = Ok lv.
  Hypothesis Hout : forall th i, (i < n)%nat -> out th (ctx i) = tabF K (pi th (ctx i)) /\ forall c, (c < K)%nat -> 0 < pi th (ctx i) c.
  Hypothesis Ha : forall i, (i < n)%nat -> (a i < K)%nat.
  Hypothesis Hp : forall i, (i < n)%nat -> 0 < p i.
  Variable qh : arr1 -> arr1.
  Hypothesis Hqh : match o with Dm | Dr => forall i, (i < n)%nat -> qh (ctx i) = tabF K (q (ctx i)) | _ => True end.

  Let loss := policy_loss out qh o lv (Fin pr) (Fin vr) (tab n ctx) (tabZ n a) (tabF n r) (tabF n p).
  Let B := batch_at K ctx a r p q.
  Let pl th := played_at ctx (pi th).

  Lemma nth_lt idx i : Forall (fun i => (i < n)%nat) idx -> (i < length idx)%nat -> (nth i idx 0 < n)%nat.
  Proof. intros H Hi. rewrite Forall_forall in H. apply H, nth_In; auto. Qed.

  Lemma batch_at_ok idx : idx <> [] -> Forall (fun i => (i < n)%nat) idx -> batch_ok (B idx).
  Proof.
    intros Hne H. constructor; simpl.
    - destruct idx; [easy|simpl; lia].
    - intros i Hi. apply Ha, nth_lt; auto.
    - intros i Hi. apply Hp, nth_lt; auto.
  Qed.

  Lemma policy_loss_batch th idx : Forall (fun i => (i < n)%nat) idx ->
    loss th idx = nn_loss o lv (Fin pr) (Fin vr) (b_model (B idx)) (tab2F (length idx) K (pl th idx)) (tab2F (length idx) K (pl th idx))
      (b_actions (B idx)) (b_rewards (B idx)) (b_pscores (B idx)).
  Proof.
    intros H. unfold loss, policy_loss. unfold tabZ, tabF. rewrite !gather_tab by auto. rewrite !map_tab.
    rewrite (tab_ext (length idx) (fun i => out th (ctx (nth i idx 0%nat))) (fun i => tabF K (pl th idx i))) by (intros i Hi; apply Hout, nth_lt; auto).
    change (tab (length idx) (fun i => Z.of_nat (a (nth i idx 0%nat)))) with (b_actions (B idx)).
    change (tab (length idx) (fun i => Fin (r (nth i idx 0%nat)))) with (b_rewards (B idx)).
    change (tab (length idx) (fun i => Fin (p (nth i idx 0%nat)))) with (b_pscores (B idx)).
    change (tab (length idx) (fun i => tabF K (pl th idx i))) with (tab2F (length idx) K (pl th idx)).
    assert (E : o = Dm \/ o = Dr -> tab (length idx) (fun i => qh (ctx (nth i idx 0%nat))) = b_model (B idx)).
    { intros Ho. apply tab_ext. intros i Hi. change (qh (ctx (nth i idx 0%nat)) = tabF K (q (ctx (nth i idx 0%nat)))).
      destruct Ho as [E|E]; rewrite E in Hqh; apply Hqh, nth_lt; auto. }
    unfold nn_loss. f_equal. destruct o; try reflexivity; rewrite E by auto; reflexivity.
  Qed.

  Lemma policy_loss_single th idx : Forall (fun i => (i < n)%nat) idx -> length idx = 1%nat -> loss th idx = Ok NaN.
  Proof.
    intros H H1. rewrite policy_loss_batch by auto. rewrite H1. assert (Hb : batch_ok (B idx)).
    { apply batch_at_ok; auto. destruct idx; [easy|discriminate]. }
    pose proof (C75_single_round_batch o lambda lv pr vr (B idx) (pl th idx) (pl th idx) Hb H1 Hlv) as HH.
    change (bt_n (B idx)) with (length idx) in HH. change (bt_K (B idx)) with K in HH. rewrite H1 in HH. apply HH.
    - intros i c Hi Hc. apply Hout; auto. apply nth_lt; auto. lia.
    - intros i c Hi Hc. apply Hout; auto. apply nth_lt; auto. lia.
  Qed.
  Lemma policy_loss_value th idx : Forall (fun i => (i < n)%nat) idx -> (2 <= length idx)%nat ->
    exists S, policy_grad_arr o lv (b_model (B idx)) (tab2F (length idx) K (pl th idx)) (tab2F (length idx) K (pl th idx))
                (b_actions (B idx)) (b_rewards (B idx)) (b_pscores (B idx)) = Ok (tabF (length idx) S) /\
      loss th idx = Ok (Fin (- avg (length idx) S + pr * ln (avg (length idx) (b_weight (B idx) (pl th idx))) + vr * variance1 (length idx) S)).
  Proof.
    intros H H2. rewrite policy_loss_batch by auto. apply (C75_loss o lambda lv pr vr (B idx) (pl th idx) (pl th idx)); auto.
    - apply batch_at_ok; auto. destruct idx; simpl in H2; [lia|discriminate].
    - intros i c Hi Hc. apply Hout; auto. apply nth_lt; auto.
    - intros i c Hi Hc. apply Hout; auto. apply nth_lt; auto.
  Qed.
  Definition loss_num th idx : num := match loss th idx with Ok v => v | Err _ => NaN end.
  Lemma policy_loss_total th idx : idx <> [] -> Forall (fun i => (i < n)%nat) idx -> loss th idx = Ok (loss_num th idx).
  Proof.
    intros Hne H. unfold loss_num. destruct (Nat.eq_dec (length idx) 1) as [E|E].
    - rewrite policy_loss_single by auto. reflexivity.
    - destruct (policy_loss_value th idx H) as (S & _ & ->); auto. destruct idx as [|? [|? ?]]; simpl in *; try easy; lia.
  Qed.
End Policy.

Lemma trainable_batch cfg n perm sh : trainable cfg n perm sh -> exists b, batch_size_ (tc_batch cfg) n = Ok b.
Proof.
  intros (_ & H & _). unfold batch_size_, check_scalar_Z. destruct (tc_batch cfg) as [b|]; [|eauto]. specialize (H b eq_refl).
  replace (Z.ltb b 1) with false by (symmetry; apply Z.ltb_ge; lia). cbn. eauto.
Qed.
Lemma in_rounds n idx (l : list nat) bs : Permutation l (seq 0 n) -> incl (concat bs) l -> In idx bs -> Forall (fun i => (i < n)%nat) idx.
Proof.
  intros Hp Hc Hi. apply Forall_forall. intros i H. assert (Hin : In i l) by (apply Hc, in_concat; eauto).
  apply (Permutation_in _ Hp) in Hin. apply in_seq in Hin. lia.
Qed.
Lemma epoch_batches cfg n perm sh epochs e idx : trainable cfg n perm sh -> epochs_of cfg n perm sh = Ok epochs -> In e epochs ->
  In idx (fst e) \/ In idx (snd e) -> idx <> [] /\ Forall (fun i => (i < n)%nat) idx.
Proof.
  intros Ht He Hin Hidx. destruct (trainable_batch _ _ _ _ Ht) as (b & Hb). destruct Ht as (H1 & _ & H3 & H4 & H5).
  destruct (epochs_ok cfg n perm sh b) as (train & val & epochs' & E & Hp & _ & _ & _ & _ & Hf); auto.
  rewrite E in He. injection He as <-. rewrite Forall_forall in Hf. destruct (Hf e Hin) as (P1 & P2 & (B1 & _) & (B2 & _)).
  rewrite Forall_forall in B1, B2. split.
  - intros ->. destruct Hidx as [Hi|Hi]; [apply B1 in Hi|apply B2 in Hi]; simpl in Hi; lia.
  - destruct Hidx as [Hi|Hi].
    + apply (in_rounds n idx (train ++ val) (fst e)); auto. intros x Hx. apply in_or_app. left. eapply Permutation_in; eauto.
    + apply (in_rounds n idx (train ++ val) (snd e)); auto. intros x Hx. apply in_or_app. right. eapply Permutation_in; eauto.
Qed.

Lemma feedback_ok_none n K (x : nat -> list num) a r pos p :
  (0 < n)%nat -> (forall i, (i < n)%nat -> (a i < K)%nat) ->
  (match p with None => True | Some q => exists v, q = tabF n v /\ forall i, (i < n)%nat -> 0 < v i end) ->
  (match pos with None => True | Some q => exists v, q = tabZ n v end) -> length r = n ->
  check_bandit_feedback_inputs (tab n x) (tabZ n a) r None pos p None = Ok tt.
Proof.
  intros Hn Ha Hp Hpos Hr.
  pose proof (feedback_ok n K x a r (repeat [] K) pos p Hn Ha Hp Hpos Hr (repeat_length _ _)) as H.
  pose proof (decides_Ok _ _ (C94_feedback_validator (tab n x) (tabZ n a) r None pos p None)) as H'.
  apply H'. destruct (C94_feedback_validator (tab n x) (tabZ n a) r None pos p (Some (repeat [] K))) as [(_ & HH)|(E & _)]; [tauto|congruence].
Qed.

(** ** Actions outside the action set *)
Lemma mapM_first_err {A B} (f : A -> res B) e : forall l, (forall x, In x l -> (exists y, f x = Ok y) \/ f x = Err e) -> (exists x, In x l /\ f x = Err e) ->
  mapM f l = Err e.
Proof.
  induction l as [|x l IH]; intros H (z & Hz & Ez); [easy|]. cbn [mapM]. destruct (H x (or_introl eq_refl)) as [(y & E)|E]; rewrite E; cbn [bind]; auto.
  rewrite IH; auto. - intros; apply H; right; auto. - destruct Hz as [->|Hz]; [congruence|eauto].
Qed.
Lemma pick_unknown m K (x : nat -> nat -> num) act i : (i < m)%nat -> (K <= act i)%nat ->
  pick (tab m (fun i => tab K (x i))) (tabZ m act) = Err IndexError.
Proof.
  intros Hi Hk. unfold pick, bcast2_idx, tabZ. rewrite bcast2_tab. cbn [bind]. apply mapM_first_err.
  - intros q Hq. apply In_tab in Hq as (j & Hj & <-). cbn [fst snd]. destruct (Nat.lt_ge_cases (act j) K).
    + left. eexists. apply np_get_tab. auto.
    + right. unfold np_get. replace (Z.ltb (Z.of_nat (act j)) 0) with false by (symmetry; apply Z.ltb_ge; lia). rewrite tab_length.
      replace (Z.ltb (Z.of_nat (act j)) (Z.of_nat K)) with false by (symmetry; apply Z.ltb_ge; lia). rewrite andb_false_r. reflexivity.
  - eexists. split; [apply In_tab; exists i; split; [auto|reflexivity]|]. cbn [fst snd]. unfold np_get.
    replace (Z.ltb (Z.of_nat (act i)) 0) with false by (symmetry; apply Z.ltb_ge; lia). rewrite tab_length.
    replace (Z.ltb (Z.of_nat (act i)) (Z.of_nat K)) with false by (symmetry; apply Z.ltb_ge; lia). rewrite andb_false_r. reflexivity.
Qed.

Lemma nn_loss_unknown o lv pr vr m K (q pi : nat -> nat -> R) act rew ps i : (i < m)%nat -> (K <= act i)%nat ->
  nn_loss o lv pr vr (tab2F m K q) (tab2F m K pi) (tab2F m K pi) (tabZ m act) rew ps = Err IndexError.
Proof.
  intros Hi Hk. assert (Hp : forall f, pick (tab2F m K f) (tabZ m act) = Err IndexError) by (intros f; apply (pick_unknown m K (fun i a => Fin (f i a)) act i); auto).
  unfold nn_loss, policy_constraint. destruct o; unfold policy_grad_arr; rewrite !Hp; reflexivity.
Qed.

Section Unknown.
  Context {P : Type} (loss : P -> list nat -> res num) (update : P -> list nat -> P) (tol : num) (nic : Z) (e : exn).
  Lemma train_unknown : forall bs (s : train_state P), (ts_counter s + Z.of_nat (length bs) <= nic)%Z -> (0 <= ts_counter s)%Z ->
    (forall b, In b bs -> (forall th, exists v, loss th b = Ok v) \/ (forall th, loss th b = Err e)) ->
    (exists b, In b bs /\ forall th, loss th b = Err e) ->
    train_batches_r loss update tol nic bs s = Err e.
  Proof.
    induction bs as [|b bs IH]; intros s Hc H0 H (z & Hz & Ez); [easy|]. cbn [train_batches_r].
    destruct (H b (or_introl eq_refl)) as [Hb|Hb].
    - destruct (Hb (ts_params s)) as (v & ->). cbn [bind]. destruct Hz as [->|Hz]; [destruct (Hb (ts_params s)); rewrite Ez in *; discriminate|].
      assert (Hn : (0 <= not_improving tol v (ts_counter s) (ts_previous s) <= ts_counter s + 1)%Z).
      { unfold not_improving. destruct (ts_previous s); [destruct (nlt _ _)|]; lia. }
      assert (Hl : (1 <= length bs)%nat) by (destruct bs; [easy|simpl; lia]). cbn [length] in Hc.
      replace (Z.leb nic _) with false by (symmetry; apply Z.leb_gt; lia). apply IH; cbn [ts_counter]; try lia; eauto.
      intros; apply H; right; auto.
    - rewrite Hb. reflexivity.
  Qed.
End Unknown.

(** ** Mean squared error *)
Lemma mse_tab m (r q : nat -> R) : (0 < m)%nat -> mse (tabF m r) (tabF m q) = Ok (Fin (avg m (fun i => (r i - q i) * (r i - q i)))).
Proof.
  intros Hm. unfold mse, tabF. rewrite bcast2_tab. cbn [bind]. rewrite map_tab. unfold nsqr, nsub. cbn [nopp nadd nmul].
  change (tab m (fun i => Fin ((r i + - q i) * (r i + - q i)))) with (tabF m (fun i => (r i - q i) * (r i - q i))). rewrite nmean_tabF by auto. reflexivity.
Qed.
