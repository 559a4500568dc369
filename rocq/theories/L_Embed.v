(** * L_Embed: lemmas about the marginalized IPW estimators. *)

From Coq Require Import Reals List ZArith Lia Lra Bool Permutation.
From Verif Require Import Num NpList M_Utils M_Estimators M_Slate M_Multi M_Embed S_Base S_Prob S_Estimators
  S_Embed L_Num L_Base L_Estimators L_Prob L_Unbiased.
Import ListNotations.
Open Scope R_scope.

Lemma prodn_ext n f g : (forall i, (i < n)%nat -> f i = g i) -> prodn n f = prodn n g.
Proof. induction n; intros H; simpl; auto. rewrite IHn by auto. rewrite H; auto. Qed.
Lemma prodn_pos n f : (forall i, (i < n)%nat -> 0 < f i) -> 0 < prodn n f.
Proof. induction n; intros H; simpl. lra. apply Rmult_lt_0_compat; auto. Qed.
Lemma prodn_div n f g : (forall i, (i < n)%nat -> g i <> 0) ->
  prodn n (fun i => f i / g i) = prodn n f / prodn n g /\ prodn n g <> 0.
Proof.
  induction n; intros H; simpl. split; lra. destruct IHn as [E Hn]; auto.
  assert (g n <> 0) by auto. split. rewrite E. field. auto. apply Rmult_integral_contrapositive; auto.
Qed.
Lemma prodn_S_first n f : prodn (S n) f = f 0%nat * prodn n (fun i => f (S i)).
Proof. induction n. simpl; lra. simpl in *. rewrite IHn. ring. Qed.

Lemma column_tab {A} n k (f : nat -> nat -> A) d : (d < k)%nat ->
  column (tab n (fun i => tab k (f i))) d = Ok (tab n (fun i => f i d)).
Proof. intros H. unfold column. apply mapM_tab. intros i Hi. apply np_get_tab; auto. Qed.

Lemma plane_tab K C D f d : (d < D)%nat -> plane (tab3F K C D f) d = Ok (tab2F K C (fun a c => f a c d)).
Proof.
  intros H. unfold plane, tab3F, tab2F, tabF. apply mapM_tab. intros a Ha. apply column_tab; auto.
Qed.

Lemma row_times_tab K C x y : (0 < K)%nat -> row_times (tabF K x) (tab2F K C y) =
  Ok (tabF C (fun c => sumn K (fun a => x a * y a c))).
Proof.
  intros HK. unfold row_times.
  assert (E : (match tab2F K C y with [] => 0%nat | r :: _ => length r end) = C).
  { unfold tab2F. destruct K; [lia|]. rewrite tab_S_first. unfold tabF. apply tab_length. }
  rewrite E. unfold tab2F, tabF at 1. rewrite !tab_length, Nat.eqb_refl. f_equal.
  match goal with |- _ = ?r => transitivity (map (fun c => Fin (sumn K (fun a => x a * y a c))) (seq 0 C)); [|reflexivity] end. apply map_ext_in. intros j Hj. apply in_seq in Hj.
  unfold tabF. rewrite combine_tab, map_tab. simpl fst. simpl snd.
  transitivity (nsum (tabF K (fun a => x a * y a j))).
  - f_equal. unfold tabF. apply tab_ext. intros a Ha. unfold nth_num. rewrite nth_tab by lia. reflexivity.
  - apply nsum_tabF.
Qed.

Lemma matmul_tab n K C x y : (0 < K)%nat ->
  matmul (tab2F n K x) (tab2F K C y) = Ok (tab2F n C (fun i c => sumn K (fun a => x i a * y a c))).
Proof.
  intros HK. unfold matmul. unfold tab2F at 1 3. apply mapM_tab. intros i Hi. apply row_times_tab; auto.
Qed.

Lemma pick_tab n C f idx : (forall i, (i < n)%nat -> (idx i < C)%nat) ->
  pick (tab2F n C f) n (tabZ n idx) = Ok (tabF n (fun i => f i (idx i))).
Proof.
  intros H. unfold pick, bcast2_idx. rewrite arange_tab. unfold tabZ. rewrite bcast2_tab. cbn [bind].
  unfold tabF. apply mapM_tab. intros i Hi. simpl fst. simpl snd. unfold tab2F. rewrite np_get_tab by auto.
  cbn [bind]. unfold tabF. rewrite np_get_tab; auto.
Qed.

Lemma e_dims l : e_accepted l -> (0 < el_n l)%nat /\ (0 < el_K l)%nat /\ (0 < el_C l)%nat.
Proof.
  intros H. pose proof (acc_n _ (ea_b l H)) as Hn. pose proof (acc_a _ (ea_b l H) 0%nat Hn) as Ha. simpl in *.
  pose proof (ea_emb l H 0 0 Hn (ea_D l H)). lia.
Qed.

Lemma marginal_ok l pi d : e_accepted l -> (d < el_D l)%nat ->
  marginal (tab3F (el_n l) (el_K l) (el_L l) pi) (e_pea l) (e_embeds l) (tabZ (el_n l) (el_pos l)) (el_n l) d
  = Ok (tabF (el_n l) (fun i => marg l pi i d (el_emb l i d))).
Proof.
  intros H Hd. destruct (e_dims l H) as (Hn & HK & HC). unfold marginal.
  rewrite fancy3_row_tab. 2:{ intros i Hi. apply (acc_pos _ (ea_b l H) i Hi). }
  cbn [bind]. unfold e_pea. rewrite plane_tab by auto. cbn [bind].
  rewrite (matmul_tab (el_n l) (el_K l) (el_C l) (fun i a => pi i a (el_pos l i))) by auto. cbn [bind].
  unfold e_embeds, tabZ at 1. rewrite column_tab by auto. cbn [bind].
  apply (pick_tab (el_n l) (el_C l) (fun i c => sumn (el_K l) (fun a => pi i a (el_pos l i) * el_pea l a c d)) (fun i => el_emb l i d)). intros i Hi. apply (ea_emb l H); auto.
Qed.

Lemma marginal_loop_ok l pi : e_accepted l -> forall ds f,
  (forall d, In d ds -> (d < el_D l)%nat) ->
  marginal_loop (tab3F (el_n l) (el_K l) (el_L l) pi) (e_pea l) (e_embeds l) (tabZ (el_n l) (el_pos l)) (el_n l) ds (tabF (el_n l) f)
  = Ok (tabF (el_n l) (fun i => fold_left (fun acc d => acc * marg l pi i d (el_emb l i d)) ds (f i))).
Proof.
  intros H ds. induction ds as [|d ds IH]; intros f Hds; simpl. reflexivity.
  rewrite marginal_ok by (auto; apply Hds; simpl; auto). cbn [bind].
  rewrite (bcast2_tabF nmul Rmult) by reflexivity. cbn [bind]. rewrite IH. reflexivity.
  intros; apply Hds; simpl; auto.
Qed.

Lemma fold_prod g n acc : fold_left (fun acc d => acc * g d) (seq 0 n) acc = acc * prodn n g.
Proof.
  revert acc. induction n; intros acc. simpl; lra.
  rewrite seq_S, fold_left_app. simpl. rewrite IHn. ring.
Qed.

Lemma repeat_tab {A} n (x : A) : repeat x n = tab n (fun _ => x).
Proof. induction n; simpl; auto. rewrite tab_S_first. f_equal; auto. Qed.

Lemma w_true_ok l : e_accepted l ->
  w_true (e_pib l) (e_pie l) (e_pea l) (e_embeds l) (tabZ (el_n l) (el_pos l)) (el_n l)
  = Ok (tabF (el_n l) (e_weight l)).
Proof.
  intros H. destruct (e_dims l H) as (Hn & HK & HC). unfold w_true.
  replace (dim2 (e_pea l)) with (el_D l) by (symmetry; apply dim2_tab3; auto).
  rewrite repeat_tab. fold (tabF (el_n l) (fun _ => 1)).
  assert (Hds : forall d, In d (seq 0 (el_D l)) -> (d < el_D l)%nat) by (intros d Hd; apply in_seq in Hd; lia).
  unfold e_pib, e_pie. rewrite (marginal_loop_ok l (el_pib l)) by auto. cbn [bind].
  rewrite (marginal_loop_ok l (el_pie l)) by auto. cbn [bind].
  set (B := fun i => prodn (el_D l) (fun d => marg l (el_pib l) i d (el_emb l i d))).
  set (E := fun i => prodn (el_D l) (fun d => marg l (el_pie l) i d (el_emb l i d))).
  replace (tabF (el_n l) (fun i => fold_left (fun acc d => acc * marg l (el_pie l) i d (el_emb l i d)) (seq 0 (el_D l)) 1))
    with (tabF (el_n l) E).
  2:{ unfold tabF. apply tab_ext. intros i Hi. f_equal. rewrite (fold_prod (fun d => marg l (el_pie l) i d (el_emb l i d))). unfold E. ring. }
  replace (tabF (el_n l) (fun i => fold_left (fun acc d => acc * marg l (el_pib l) i d (el_emb l i d)) (seq 0 (el_D l)) 1))
    with (tabF (el_n l) B).
  2:{ unfold tabF. apply tab_ext. intros i Hi. f_equal. rewrite (fold_prod (fun d => marg l (el_pib l) i d (el_emb l i d))). unfold B. ring. }
  rewrite (bcast2_tabF ndiv Rdiv).
  - f_equal. unfold tabF. apply tab_ext. intros i Hi. f_equal. unfold e_weight, E, B. symmetry.
    apply prodn_div. intros d Hd. pose proof (ea_supp l H i d Hi Hd). lra.
  - intros i Hi. apply ndiv_Fin. unfold B. pose proof (prodn_pos (el_D l) (fun d => marg l (el_pib l) i d (el_emb l i d))
      (fun d Hd => ea_supp l H i d Hi Hd)). lra.
Qed.

Lemma nmaxl_ok x l : exists v, nmaxl (x :: l) = Ok v.
Proof. simpl. eauto. Qed.

Lemma nmaxl_tab n f : (0 < n)%nat -> exists v, nmaxl (tabF n f) = Ok v.
Proof. intros H. destruct n; [lia|]. unfold tabF. rewrite tab_S_first. apply nmaxl_ok. Qed.

(** The arguments of a call on log [l] with the position array [arg]. *)
Lemma embed_checks_ok l arg ctx : e_accepted l -> position_arg (as_log l) arg ->
  embed_checks (e_rewards l) (e_actions l) (e_pib l) (e_pie l) arg (Some (e_pea l)) ctx = Ok tt.
Proof.
  intros H Harg. unfold embed_checks.
  pose proof (check_ok (plain l (el_pib l) (fun _ => 1)) arg None None (ea_b l H) Harg (or_introl eq_refl) (or_introl eq_refl)) as E1.
  pose proof (check_ok (plain l (el_pie l) (fun _ => 1)) arg None None (ea_e l H) Harg (or_introl eq_refl) (or_introl eq_refl)) as E2.
  unfold policy, actions, rewards in E1, E2. simpl in E1, E2.
  unfold e_rewards, e_actions, e_pib, e_pie. rewrite E1. cbn [bind]. rewrite E2. reflexivity.
Qed.

Lemma e_position l arg : e_accepted l -> position_arg (as_log l) arg ->
  default_position (e_pie l) arg = tabZ (el_n l) (el_pos l).
Proof.
  intros H Harg. exact (default_position_ok (plain l (el_pie l) (fun _ => 1)) arg (ea_e l H) Harg).
Qed.

Lemma ec_weights_ok l na fit : e_accepted l ->
  ec_weights (mkECall (e_rewards l) (e_actions l) (e_embeds l) (e_pib l) (e_pie l) (tabZ (el_n l) (el_pos l)) (Some (e_pea l)) na fit)
    (e_embeds l) (Some (e_pea l)) = Ok (tabF (el_n l) (e_weight l)).
Proof.
  intros H. unfold ec_weights. cbn [ec_reward ec_pib ec_pie ec_pos]. unfold e_rewards at 1, tabF at 1. rewrite tab_length.
  rewrite w_true_ok by auto. cbn [bind]. destruct (e_dims l H) as (Hn & _).
  destruct (nmaxl_tab (el_n l) (e_weight l) Hn) as [v ->]. reflexivity.
Qed.

Lemma D_of l : e_accepted l -> match e_embeds l with [] => 0%nat | r :: _ => length r end = el_D l.
Proof.
  intros H. destruct (e_dims l H) as (Hn & _). unfold e_embeds. destruct (el_n l); [lia|]. rewrite tab_S_first.
  unfold tabZ. apply tab_length.
Qed.

(** ** Selection *)

Definition toN (p : R * R) : num * num := (Fin (fst p), Fin (snd p)).

Lemma compatible_all_spec i acc : compatible_all (toN i) (map toN acc) = true <->
  (forall j, In j acc -> agrees i j).
Proof.
  unfold compatible_all. rewrite forallb_forall. split.
  - intros H j Hj. specialize (H (toN j) (in_map toN _ _ Hj)). simpl in H. apply Rleb_true in H. exact H.
  - intros H x Hx. apply in_map_iff in Hx as (j & <- & Hj). simpl. apply Rleb_true. apply (H j Hj).
Qed.

Lemma last_map {A B} (f : A -> B) l d d' : l <> [] -> last (map f l) d' = f (last l d).
Proof. induction l as [|a [|b l] IH]; intros H. congruence. reflexivity. change (last (map f (b :: l)) d' = f (last (b :: l) d)). apply IH. congruence. Qed.

Lemma last_nth {A} (l : list A) d : last l d = nth (length l - 1) l d.
Proof.
  induction l as [|a [|b l] IH]; auto. change (last (b :: l) d = nth (length (a :: b :: l) - 1) (a :: b :: l) d).
  rewrite IH. simpl. rewrite Nat.sub_0_r. reflexivity.
Qed.

(** Running the loop on [cands] after [acc] was accepted. *)
Definition all_adm (cs : list (R * R)) (m : nat) := forall i, (i < m)%nat -> admissible cs i.

Lemma admissible_app cs cs' i : (i < length cs)%nat -> admissible (cs ++ cs') i <-> admissible cs i.
Proof.
  intros Hi. unfold admissible. split; intros H j Hj; specialize (H j Hj).
  - rewrite !app_nth1 in H by lia. auto.
  - rewrite !app_nth1 by lia. auto.
Qed.

Lemma admissible_snoc acc i : admissible (acc ++ [i]) (length acc) <-> (forall j, In j acc -> agrees i j).
Proof.
  unfold admissible. split.
  - intros H j Hj. apply In_nth with (d := (0, 0)) in Hj as (k & Hk & <-).
    specialize (H k Hk). rewrite app_nth2, Nat.sub_diag in H by lia. rewrite app_nth1 in H by lia. exact H.
  - intros H j Hj. rewrite app_nth2, Nat.sub_diag by lia. rewrite app_nth1 by lia. apply H. apply nth_In; auto.
Qed.

Lemma select_spec cands : forall acc tj, acc <> [] -> all_adm acc (length acc) ->
  (tj = None \/ exists a, tj = Some (map toN (removelast acc)) /\ a = acc /\ removelast acc <> []) ->
  match select_loop (map toN cands) (map toN acc) tj with
  | inl v => exists m, (length acc <= S m)%nat /\ (S m < length (acc ++ cands))%nat /\
      (forall i, (i <= m)%nat -> admissible (acc ++ cands) i) /\ ~ admissible (acc ++ cands) (S m) /\
      v = Fin (fst (nth m (acc ++ cands) (0, 0)))
  | inr (acc', tj') => all_adm (acc ++ cands) (length (acc ++ cands)) /\ acc' = map toN (acc ++ cands) /\
      (cands = [] /\ tj' = tj \/ tj' = Some (map toN (removelast (acc ++ cands))) /\ removelast (acc ++ cands) <> [])
  end.
Proof.
  induction cands as [|i cands IH]; intros acc tj Hne Hadm Htj; simpl.
  - rewrite app_nil_r. auto.
  - destruct (compatible_all (toN i) (map toN acc)) eqn:E.
    + rewrite compatible_all_spec in E.
      assert (Hadm' : all_adm (acc ++ [i]) (length (acc ++ [i]))).
      { intros k Hk. rewrite app_length in Hk. simpl in Hk. destruct (Nat.eq_dec k (length acc)) as [->|Hn].
        - apply admissible_snoc. auto.
        - apply admissible_app. lia. apply Hadm. lia. }
      specialize (IH (acc ++ [i]) (Some (map toN acc))).
      rewrite map_app in IH. simpl in IH.
      assert (Hrm : removelast (acc ++ [i]) = acc) by (apply removelast_last).
      rewrite <- app_assoc in IH. simpl in IH.
      specialize (IH ltac:(destruct acc; simpl; congruence) Hadm').
      rewrite Hrm in IH. specialize (IH (or_intror (ex_intro _ (acc ++ [i]) (conj eq_refl (conj eq_refl Hne))))).
      destruct (select_loop (map toN cands) (map toN acc ++ [toN i]) (Some (map toN acc))) as [v|[acc' tj']].
      * destruct IH as (m & H1 & H2). rewrite app_length in H1. simpl in H1. exists m. split. lia. exact H2.
      * destruct IH as (H1 & H2 & H3). split; auto. split; auto. right.
        destruct H3 as [[-> ->]|H3]; auto. split; auto. rewrite Hrm. reflexivity. rewrite Hrm. auto.
    + assert (Hnot : ~ (forall j, In j acc -> agrees i j)) by (rewrite <- compatible_all_spec; congruence).
      exists (length acc - 1)%nat. destruct acc as [|a0 acc0] eqn:Ea; [congruence|]. rewrite <- Ea in *.
      assert (Hl : (0 < length acc)%nat) by (rewrite Ea; simpl; lia). clear Ea.
      replace (S (length acc - 1)) with (length acc) by lia.
      split. lia. split. rewrite app_length. simpl. lia. split; [|split].
      * intros k Hk. apply admissible_app. lia. apply Hadm. lia.
      * intros Ha. apply Hnot. apply admissible_snoc.
        replace (acc ++ i :: cands) with ((acc ++ [i]) ++ cands) in Ha by (rewrite <- app_assoc; reflexivity).
        apply admissible_app in Ha; auto. rewrite app_length. simpl. lia.
      * rewrite (last_map toN acc (0, 0)) by auto. unfold toN. simpl. do 2 f_equal.
        rewrite app_nth1 by lia. apply last_nth.
Qed.
