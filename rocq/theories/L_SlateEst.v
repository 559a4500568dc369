(** * L_SlateEst: values of the slate estimators on well-formed logs. *)

From Coq Require Import Reals List ZArith Bool Lia Lra Permutation Sorting.
From Verif Require Import Num NpList M_Utils M_Slate S_Base S_Prob S_Estimators S_Slate L_Num L_Base L_Prob L_Unbiased
  L_EstProps L_Utils L_Slate.
Import ListNotations.
Open Scope R_scope.

Lemma nth_tabZ n f i d : (i < n)%nat -> nth i (tabZ n f) d = Z.of_nat (f i).
Proof. intros. unfold tabZ. rewrite nth_tab by auto. reflexivity. Qed.
Lemma nth_tabF n f i d : (i < n)%nat -> nth i (tabF n f) d = Fin (f i).
Proof. intros. unfold tabF. rewrite nth_tab by auto. reflexivity. Qed.
Lemma tabZ_length n f : length (tabZ n f) = n. Proof. apply tab_length. Qed.
Lemma tabF_length n f : length (tabF n f) = n. Proof. apply tab_length. Qed.

Lemma rows_valid l : rows_ok l -> inputs_valid (s_ids l) (s_rew l) (s_pos l) (s_p l) (s_pe l).
Proof.
  intros [H1 H2 H3 H4]. unfold s_ids, s_pos, s_rew, s_p, s_pe.
  constructor; rewrite ?tabZ_length, ?tabF_length; auto; apply Forall_forall; intros x Hx;
    apply In_tab in Hx as (i & Hi & <-); try lia.
  - right; exists (sl_p l i); split; auto.
  - right; exists (sl_pe l i); split; auto.
Qed.
Lemma rows_no_repeat l : rows_ok l -> no_repeat (s_ids l) (s_pos l).
Proof.
  intros H i j Hi Hj. unfold s_ids, s_pos in *. rewrite tabZ_length in *. rewrite !nth_tabZ by auto.
  intros E1 E2. apply (so_uniq l H); auto; lia.
Qed.
Lemma rows_constant l : constant_in_slate l -> one_value_per_slate (s_ids l) (s_p l) /\ one_value_per_slate (s_ids l) (s_pe l).
Proof.
  intros H; split; intros i j; unfold s_ids, s_p, s_pe; rewrite tabZ_length; intros Hi Hj;
    rewrite !nth_tabZ, !nth_tabF by auto; intros E; apply Nat2Z.inj in E; destruct (H i j Hi Hj E); congruence.
Qed.
Lemma rows_cascading l : cascading l -> never_increases (s_ids l) (s_pos l) (s_p l) /\ never_increases (s_ids l) (s_pos l) (s_pe l).
Proof.
  intros H; split; intros i j; unfold s_ids, s_p, s_pe, s_pos; rewrite tabZ_length; intros Hi Hj;
    rewrite !nth_tabZ, !nth_tabF by auto; intros E E2; apply Nat2Z.inj in E;
    destruct (H i j Hi Hj E) as [Ha Hb]; try lia; simpl; apply Rltb_false; auto.
Qed.
Lemma check_sips_rows l : rows_ok l -> constant_in_slate l ->
  check_sips_inputs (s_ids l) (s_rew l) (s_pos l) (s_p l) (s_pe l) = Ok tt.
Proof.
  intros H Hc. eapply decides_Ok; [apply check_sips_decides|].
  split; [apply rows_valid; auto|]. split; [apply rows_no_repeat; auto|]. apply rows_constant; auto.
Qed.
Lemma check_iips_rows l : rows_ok l ->
  check_iips_inputs (s_ids l) (s_rew l) (s_pos l) (s_p l) (s_pe l) = Ok tt.
Proof.
  intros H. eapply decides_Ok; [apply check_iips_decides|].
  split; [apply rows_valid; auto|]. apply rows_no_repeat; auto.
Qed.
Lemma check_rips_rows l : rows_ok l -> cascading l ->
  check_rips_inputs (s_ids l) (s_rew l) (s_pos l) (s_p l) (s_pe l) = Ok tt.
Proof.
  intros H Hc. eapply decides_Ok; [apply check_rips_decides|].
  split; [apply rows_valid; auto|]. split; [apply rows_no_repeat; auto|]. apply rows_cascading; auto.
Qed.

Lemma iw_rows l : rows_ok l -> bcast2 ndiv (s_pe l) (s_p l) = Ok (tabF (sl_n l) (s_weight l)).
Proof.
  intros H. unfold s_pe, s_p, tabF. rewrite bcast2_tab. f_equal. apply tab_ext. intros i Hi.
  apply ndiv_Fin. pose proof (so_p l H i Hi). lra.
Qed.
Lemma ipw_rounds l : rows_ok l ->
  slate_ipw_rounds (s_rew l) (s_pos l) (s_p l) (s_pe l) = Ok (tabF (sl_n l) (fun i => sl_r l i * s_weight l i)).
Proof.
  intros H. unfold slate_ipw_rounds. rewrite iw_rows by auto. simpl. unfold s_rew, tabF. rewrite bcast2_tab. reflexivity.
Qed.
Lemma per_slate_rows l ids f : (0 < sl_n l)%nat -> slates l ids ->
  per_slate (tabF (sl_n l) f) (s_ids l) = Fin (slate_mean l ids f).
Proof.
  intros Hn Hs. unfold per_slate. rewrite nsum_tabF, (slates_count l ids Hs). unfold nnat.
  rewrite ndiv_Fin by (apply INR_ne, (slates_pos l ids); auto). rewrite slate_mean_rows by auto. reflexivity.
Qed.

Lemma slate_value_rows check rounds l ids f : rows_ok l -> slates l ids ->
  check (s_ids l) (s_rew l) (s_pos l) (s_p l) (s_pe l) = Ok tt ->
  rounds (s_rew l) (s_pos l) (s_p l) (s_pe l) = Ok (tabF (sl_n l) f) ->
  slate_value check rounds (s_ids l) (s_rew l) (s_pos l) (s_p l) (s_pe l) = Ok (Fin (slate_mean l ids f)).
Proof.
  intros H Hs Hc Hr. unfold slate_value. rewrite Hc. simpl. rewrite Hr. simpl.
  rewrite (per_slate_rows l ids) by (auto; apply H). reflexivity.
Qed.

(** per-slate sums *)
Lemma in_slate_tab n (id : nat -> nat) (f : nat -> R) s :
  nsum (in_slate (Z.of_nat s) (tabZ n id) (tabF n f)) = Fin (sumn n (fun i => if Nat.eq_dec (id i) s then f i else 0)).
Proof.
  unfold in_slate, tabZ, tabF. rewrite combine_tab. induction n; auto.
  rewrite tab_S, filter_app, map_app. unfold nsum in *. rewrite fold_right_app.
  simpl. destruct (Nat.eq_dec (id n) s) as [E|E].
  - rewrite E, Z.eqb_refl. simpl.
    transitivity (nadd (fold_right nadd (Fin 0) (map snd (filter (fun p : Z * num => (fst p =? Z.of_nat s)%Z) (tab n (fun i => (Z.of_nat (id i), Fin (f i))))))) (Fin (f n))).
    + generalize (map snd (filter (fun p : Z * num => (fst p =? Z.of_nat s)%Z) (tab n (fun i => (Z.of_nat (id i), Fin (f i)))))).
      induction l; simpl. f_equal; lra. rewrite IHl. rewrite nadd_assoc. reflexivity.
    + rewrite IHn. reflexivity.
  - destruct (Z.eqb_spec (Z.of_nat (id n)) (Z.of_nat s)); [lia|]. simpl. rewrite IHn. f_equal. lra.
Qed.
Lemma sorted_unique l ids : slates l ids -> StronglySorted lt ids -> np_unique (s_ids l) = map Z.of_nat ids.
Proof.
  intros Hs Hsort. pose proof (slates_unique l ids Hs) as HP. pose proof (np_unique_sorted (s_ids l)) as Hu.
  assert (Hm : StronglySorted Z.lt (map Z.of_nat ids)).
  { clear - Hsort. induction Hsort; simpl; constructor; auto. apply Forall_forall. intros x Hx.
    apply in_map_iff in Hx as (y & <- & Hy). rewrite Forall_forall in H. specialize (H y Hy). lia. }
  revert HP Hu Hm. generalize (np_unique (s_ids l)) (map Z.of_nat ids). clear.
  induction l; intros l' HP Hu Hm.
  - apply Permutation_nil in HP. auto.
  - destruct l' as [|b l']. { apply Permutation_sym, Permutation_nil in HP. discriminate. }
    inversion Hu; inversion Hm; subst. rewrite Forall_forall in H2, H6.
    assert (a = b).
    { assert (Ha : In a (b :: l')) by (eapply Permutation_in; [exact HP|simpl; auto]).
      assert (Hb : In b (a :: l)) by (eapply Permutation_in; [apply Permutation_sym; exact HP|simpl; auto]).
      simpl in *. destruct Ha as [Ha|Ha]; auto. destruct Hb as [Hb|Hb]; auto. specialize (H6 a Ha). specialize (H2 b Hb). lia. }
    subst. f_equal. apply IHl; auto. eapply Permutation_cons_inv; eauto.
Qed.
Lemma slate_sums_rows l ids f : slates l ids -> StronglySorted lt ids ->
  slate_sums (s_ids l) (tabF (sl_n l) f) = map (fun s => Fin (slate_total l f s)) ids.
Proof.
  intros Hs Hsort. unfold slate_sums. rewrite (sorted_unique l ids) by auto. rewrite map_map. apply map_ext.
  intros s. unfold s_ids. rewrite in_slate_tab. reflexivity.
Qed.

(** ** Self-normalised *)
Lemma at_position_tab n (pos : nat -> nat) (f : nat -> R) k :
  nmean (at_position (Z.of_nat k) (tabZ n pos) (tabF n f))
  = ndiv (Fin (sumn n (fun i => if Nat.eq_dec (pos i) k then f i else 0)))
         (Fin (sumn n (fun i => if Nat.eq_dec (pos i) k then 1 else 0))).
Proof.
  unfold nmean. f_equal.
  - apply (in_slate_tab n pos f k).
  - unfold nnat, at_position, tabZ, tabF. rewrite map_length. f_equal. rewrite combine_tab.
    induction n; auto. rewrite tab_S, filter_app, app_length, plus_INR, IHn. simpl. f_equal.
    destruct (Nat.eq_dec (pos n) k) as [->|]; [rewrite Z.eqb_refl; simpl; lra|].
    destruct (Z.eqb_spec (Z.of_nat (pos n)) (Z.of_nat k)); [lia|]. simpl. lra.
Qed.
Lemma pos_count_pos l k : (exists i, (i < sl_n l)%nat /\ sl_pos l i = k) -> 0 < pos_count l k.
Proof.
  intros (i & Hi & E). unfold pos_count. apply (sumn_pos _ _ i); auto.
  - intros j _. destruct (Nat.eq_dec _ _); lra.
  - rewrite E. destruct (Nat.eq_dec k k); [lra|congruence].
Qed.
Lemma sn_rounds l len : rows_ok l ->
  (forall i, (i < sl_n l)%nat -> (sl_pos l i < len)%nat -> 0 < pos_mean_weight l (sl_pos l i)) ->
  sn_position_rounds len (s_rew l) (s_pos l) (s_p l) (s_pe l)
  = Ok (tabF (sl_n l) (fun i => if lt_dec (sl_pos l i) len then sl_r l i * s_weight l i / pos_mean_weight l (sl_pos l i) else 0)).
Proof.
  intros H Hm. unfold sn_position_rounds. rewrite iw_rows by auto. simpl. f_equal.
  assert (E : combine (s_pos l) (combine (s_rew l) (tabF (sl_n l) (s_weight l)))
     = tab (sl_n l) (fun i => (Z.of_nat (sl_pos l i), (Fin (sl_r l i), Fin (s_weight l i))))).
  { unfold s_pos, s_rew, tabZ, tabF. rewrite !combine_tab. reflexivity. }
  rewrite E, map_tab. unfold tabF at 2. apply tab_ext. intros i Hi. replace (Z.leb 0 (Z.of_nat (sl_pos l i))) with true by (symmetry; apply Z.leb_le; lia).
  simpl. destruct (lt_dec (sl_pos l i) len) as [Hl|Hl].
  - replace (Z.ltb (Z.of_nat (sl_pos l i)) (Z.of_nat len)) with true by (symmetry; apply Z.ltb_lt; lia).
    unfold s_pos. rewrite at_position_tab.
    assert (Hc : 0 < pos_count l (sl_pos l i)) by (apply pos_count_pos; eauto).
    unfold pos_count in Hc. rewrite ndiv_Fin by lra. specialize (Hm i Hi Hl).
    change (sumn (sl_n l) (fun i0 => if Nat.eq_dec (sl_pos l i0) (sl_pos l i) then s_weight l i0 else 0) / _) with (pos_mean_weight l (sl_pos l i)).
    apply ndiv_Fin. lra.
  - replace (Z.ltb (Z.of_nat (sl_pos l i)) (Z.of_nat len)) with false by (symmetry; apply Z.ltb_ge; lia). reflexivity.
Qed.
Lemma snsips_rounds_rows l : rows_ok l -> 0 < avg (sl_n l) (s_weight l) ->
  snsips_rounds (s_rew l) (s_pos l) (s_p l) (s_pe l)
  = Ok (tabF (sl_n l) (fun i => sl_r l i * s_weight l i / avg (sl_n l) (s_weight l))).
Proof.
  intros H Hm. unfold snsips_rounds. rewrite iw_rows by auto. simpl. unfold s_rew. unfold tabF at 1 2. rewrite bcast2_tab. simpl.
  f_equal. rewrite map_tab. rewrite nmean_tabF by apply H. unfold tabF. apply tab_ext. intros i Hi. apply ndiv_Fin. lra.
Qed.

(** ** Layout lemmas *)
Lemma skipn_tab {A} n k (f : nat -> A) : skipn k (tab n f) = tab (n - k) (fun i => f (k + i)%nat).
Proof.
  revert n f; induction k; intros n f; simpl; [rewrite Nat.sub_0_r; auto|].
  destruct n; auto. rewrite tab_S_first. simpl. rewrite IHk. reflexivity.
Qed.
Lemma firstn_tab {A} n k (f : nat -> A) : (k <= n)%nat -> firstn k (tab n f) = tab k f.
Proof.
  revert n f; induction k; intros n f Hk; simpl; auto.
  destruct n; [lia|]. rewrite !tab_S_first. simpl. rewrite IHk by lia. reflexivity.
Qed.
Lemma reshape_tab {A} m k (f : nat -> A) : (0 < k)%nat ->
  reshape k (tab (m * k) f) = Ok (tab m (fun i => tab k (fun j => f (i * k + j)%nat))).
Proof.
  intros Hk. unfold reshape. rewrite tab_length.
  replace (Nat.eqb k 0) with false by (symmetry; apply Nat.eqb_neq; lia).
  rewrite Nat.mod_mul by lia. simpl. rewrite Nat.div_mul by lia. f_equal.
  change (map (fun i => firstn k (skipn (i * k) (tab (m * k) f))) (seq 0 m)) with
    (tab m (fun i => firstn k (skipn (i * k) (tab (m * k) f)))). apply tab_ext. intros i Hi.
  rewrite skipn_tab, firstn_tab; [reflexivity|]. nia.
Qed.
Lemma tab_app {A} n m (f : nat -> A) : tab (n + m) f = tab n f ++ tab m (fun i => f (n + i)%nat).
Proof.
  induction m; [rewrite Nat.add_0_r, app_nil_r; auto|].
  rewrite Nat.add_succ_r, !tab_S, IHm, app_assoc. reflexivity.
Qed.
Lemma divmod_block i k L : (k < L)%nat -> ((i * L + k) / L = i /\ (i * L + k) mod L = k)%nat.
Proof.
  intros H. split.
  - rewrite Nat.add_comm, Nat.div_add by lia. rewrite Nat.div_small; lia.
  - rewrite Nat.add_comm, Nat.mod_add by lia. apply Nat.mod_small; auto.
Qed.
Lemma concat_tab {A} n L (g : nat -> nat -> A) :
  concat (tab n (fun i => tab L (g i))) = tab (n * L) (fun j => g (j / L)%nat (j mod L)%nat).
Proof.
  induction n; auto. rewrite tab_S, concat_app, IHn. simpl concat. rewrite app_nil_r.
  replace (S n * L)%nat with (n * L + L)%nat by lia. rewrite tab_app. f_equal. apply tab_ext. intros k Hk.
  destruct (divmod_block n k L Hk) as [-> ->]. reflexivity.
Qed.
Lemma list_prod_tab n L : list_prod (seq 0 n) (seq 0 L) = tab (n * L) (fun j => (j / L, j mod L)%nat).
Proof.
  rewrite <- (concat_tab n L (fun i k => (i, k))). unfold tab.
  generalize (seq 0 n). induction l; simpl; auto. f_equal. auto.
Qed.
Lemma sumn_block n L f : sumn (n * L) f = sumn n (fun i => sumn L (fun k => f (i * L + k)%nat)).
Proof.
  induction n; auto. replace (S n * L)%nat with (n * L + L)%nat by lia. rewrite sumn_app, IHn. reflexivity.
Qed.
Lemma roll1_tab {A} m (f : nat -> A) :
  roll1 (tab (S m) f) = tab (S m) (fun i => match i with O => f m | S k => f k end).
Proof.
  unfold roll1. rewrite tab_S, rev_app_distr. simpl. rewrite rev_involutive, tab_S_first. reflexivity.
Qed.
Lemma set_at_tab {A} n (f : nat -> A) i v : (i < n)%nat ->
  set_at (tab n f) i v = tab n (fun j => if Nat.eq_dec j i then v else f j).
Proof.
  revert f i; induction n; intros f i Hi; [lia|]. rewrite !tab_S_first. destruct i; simpl.
  - f_equal.
  - f_equal. rewrite IHn by lia. apply tab_ext. intros j Hj. destruct (Nat.eq_dec j i), (Nat.eq_dec (S j) (S i)); auto; lia.
Qed.
Lemma set_many_tab n (f : nat -> num) idx v : (forall i, In i idx -> (i < n)%nat) ->
  set_many (tab n f) idx v = Ok (tab n (fun j => if in_dec Nat.eq_dec j idx then v else f j)).
Proof.
  intros H. unfold set_many. rewrite tab_length.
  replace (forallb _ idx) with true by (symmetry; apply forallb_forall; intros i Hi; apply Nat.ltb_lt; auto).
  f_equal. revert f H. induction idx as [|i idx IH]; intros f H; simpl.
  - apply tab_ext. auto.
  - rewrite set_at_tab by (apply H; simpl; auto). rewrite IH by (intros; apply H; simpl; auto).
    apply tab_ext. intros j Hj. destruct (Nat.eq_dec i j) as [->|Hne].
    + destruct (in_dec Nat.eq_dec j idx); auto. destruct (Nat.eq_dec j j); congruence.
    + destruct (in_dec Nat.eq_dec j idx); auto. destruct (Nat.eq_dec j i); congruence.
Qed.

(** ** Cascade doubly robust *)
Lemma block_slates l n L : in_blocks l n L -> length (np_unique (s_ids l)) = n.
Proof.
  intros (Hn & HL & Hl & Hb).
  assert (Hi : forall i, (i < n)%nat -> (i * L < n * L)%nat) by (intros; nia).
  assert (Hs : slates l (tab n (fun i => sl_id l (i * L)))).
  { split.
    - apply (NoDup_nth _ 0%nat). rewrite tab_length. intros i j Hi' Hj'. rewrite !nth_tab by auto. intros E.
      apply Hb in E; auto. rewrite !Nat.div_mul in E by lia. auto.
    - intros s. rewrite In_tab. split.
      + intros (i & Hi' & <-). exists (i * L)%nat. split; auto. rewrite Hl; auto.
      + intros (i & Hi' & <-). rewrite Hl in Hi'. exists (i / L)%nat.
        assert (Hd : (i / L < n)%nat) by (apply Nat.div_lt_upper_bound; lia).
        split; auto. apply Hb; auto. rewrite Nat.div_mul by lia. reflexivity. }
  rewrite (slates_count l _ Hs). apply tab_length.
Qed.

Lemma in_starts n L j : (0 < L)%nat -> (j < n * L)%nat ->
  In j (map (fun i => (i * L)%nat) (seq 0 n)) <-> (j mod L = 0)%nat.
Proof.
  intros HL Hj. rewrite in_map_iff. split.
  - intros (i & <- & _). apply Nat.mod_mul; lia.
  - intros H. exists (j / L)%nat. pose proof (Nat.div_mod j L ltac:(lia)). split; [lia|].
    apply in_seq. split; [lia|]. simpl. apply Nat.div_lt_upper_bound; lia.
Qed.

Lemma cascade_rounds l n L K act q pi : in_blocks l n L -> rows_ok l ->
  (0 < K)%nat -> (forall j, (j < sl_n l)%nat -> (act j < K)%nat) ->
  cascade_dr_rounds L K n (tabZ (sl_n l) act) (s_rew l) (s_p l) (s_pe l) (flat2 (sl_n l) K q) (flat2 (sl_n l) K pi)
  = Ok (tabF (sl_n l) (fun j => s_weight l j * (sl_r l j - q j (act j))
        + prev_weight l L (j / L) (j mod L) * sumn K (fun a => pi j a * q j a))).
Proof.
  intros (Hn & HL & Hl & _) H HK Ha. unfold cascade_dr_rounds.
  assert (Hr : forall f, reshape K (flat2 (sl_n l) K f) = Ok (tab (n * L) (fun j => tabF K (f j)))).
  { intros f. unfold flat2. unfold tabF at 1. rewrite reshape_tab by auto. rewrite Hl. f_equal. apply tab_ext. intros i Hi.
    unfold tabF. apply tab_ext. intros a Haa. destruct (divmod_block i a K Haa) as [-> ->]. reflexivity. }
  assert (Hr3 : forall f : nat -> list num, reshape L (tab (n * L) f) = Ok (tab n (fun i => tab L (fun k => f (i * L + k)%nat)))).
  { intros f. apply reshape_tab; auto. }
  assert (Hdm : forall j, (j < n * L)%nat -> (j / L < n /\ j mod L < L /\ j / L * L + j mod L = j)%nat).
  { intros j Hj. split; [apply Nat.div_lt_upper_bound; lia|]. split; [apply Nat.mod_upper_bound; lia|].
    pose proof (Nat.div_mod j L ltac:(lia)). lia. }
  rewrite Hr. simpl. rewrite Hr3. simpl.
  rewrite list_prod_tab.
  rewrite (mapM_tab (n * L) _ _ (fun j => Fin (q j (act j)))).
  2:{ intros j Hj. destruct (Hdm j Hj) as (H1 & H2 & H3). simpl. rewrite H3. unfold tabZ. rewrite Hl.
      rewrite np_get_tab by auto. simpl. rewrite np_get_tab by auto. simpl. rewrite np_get_tab by auto. simpl.
      rewrite H3. unfold tabF. rewrite np_get_tab by (apply Ha; rewrite Hl; auto). reflexivity. }
  simpl.
  assert (He : bcast2 nmul (flat2 (sl_n l) K pi) (flat2 (sl_n l) K q) = Ok (flat2 (sl_n l) K (fun j a => pi j a * q j a))).
  { unfold flat2, tabF. rewrite bcast2_tab. reflexivity. }
  rewrite He. simpl. rewrite Hr. simpl. rewrite Hr3. simpl.
  rewrite iw_rows by auto. simpl.
  assert (Hpos : (0 < n * L)%nat) by nia. rewrite Hl. destruct (n * L)%nat as [|m] eqn:Em; [lia|].
  unfold tabF at 1. rewrite roll1_tab. rewrite <- Em in *. rewrite set_many_tab.
  2:{ intros i Hi. apply in_map_iff in Hi as (x & <- & Hx). apply in_seq in Hx. nia. }
  simpl. unfold s_rew, tabF. rewrite Hl, bcast2_tab. simpl. rewrite bcast2_tab. simpl.
  rewrite map_tab.
  rewrite (tab_ext n _ (fun i => tab L (fun k => Fin (sumn K (fun a => pi (i * L + k)%nat a * q (i * L + k)%nat a))))).
  2:{ intros i Hi. rewrite map_tab. apply tab_ext. intros k Hk. apply nsum_tabF. }
  rewrite concat_tab, bcast2_tab. simpl. rewrite bcast2_tab. f_equal. apply tab_ext. intros j Hj.
  destruct (Hdm j Hj) as (H1 & H2 & H3). rewrite H3. simpl.
  destruct (in_dec Nat.eq_dec j (map (fun i => (i * L)%nat) (seq 0 n))) as [Hin|Hin].
  - rewrite in_starts in Hin by auto. rewrite Hin. simpl. reflexivity.
  - rewrite in_starts in Hin by auto. destruct j as [|j]; [rewrite Nat.mod_0_l in Hin by lia; lia|].
    unfold prev_weight. destruct (S j mod L)%nat as [|k] eqn:E; [lia|].
    simpl. replace (S j / L * L + k)%nat with j by lia. reflexivity.
Qed.

Lemma isclose_1 : isclose1 (Fin 1) = true.
Proof. simpl. apply Rleb_true. replace (1 - 1) with 0 by lra. rewrite Rabs_R0. lra. Qed.

Lemma check_cascade_dr_rows l K act q pi : rows_ok l -> cascading l ->
  (0 < K)%nat -> (forall j, (j < sl_n l)%nat -> (act j < K)%nat) ->
  (forall j, (j < sl_n l)%nat -> sumn K (pi j) = 1) ->
  check_cascade_dr_inputs K (s_ids l) (tabZ (sl_n l) act) (s_rew l) (s_pos l) (s_p l) (s_pe l)
    (flat2 (sl_n l) K q) (flat2 (sl_n l) K pi) = Ok tt.
Proof.
  intros H Hc HK Ha Hp. unfold check_cascade_dr_inputs. rewrite check_rips_rows by auto. simpl.
  destruct (zminl_tab (sl_n l) act) as (mn & -> & Hmn); [apply H|]. simpl.
  destruct (zmaxl_tab (sl_n l) act K) as (mx & -> & Hmx); [apply H|auto|]. simpl.
  replace (Z.leb 0 mn) with true by (symmetry; apply Z.leb_le; lia).
  replace (Z.ltb mx (Z.of_nat K)) with true by (symmetry; apply Z.ltb_lt; lia). simpl.
  unfold flat2. rewrite !tabF_length. unfold s_ids. rewrite !tabZ_length. rewrite Nat.div_mul by lia.
  rewrite !Nat.eqb_refl. simpl. unfold tabF. rewrite reshape_tab by auto. simpl.
  replace (forallb _ _) with true; auto. symmetry. apply forallb_tab. intros j Hj.
  rewrite (tab_ext K _ (fun a => Fin (pi j a))).
  2:{ intros a Haa. destruct (divmod_block j a K Haa) as [-> ->]. reflexivity. }
  change (tab K (fun a => Fin (pi j a))) with (tabF K (pi j)). rewrite nsum_tabF, Hp by auto. apply isclose_1.
Qed.

Lemma cascade_value l n L K act q pi : in_blocks l n L -> rows_ok l -> cascading l ->
  (0 < K)%nat -> (forall j, (j < sl_n l)%nat -> (act j < K)%nat) ->
  (forall j, (j < sl_n l)%nat -> sumn K (pi j) = 1) ->
  cascade_dr_value L K (s_ids l) (tabZ (sl_n l) act) (s_rew l) (s_pos l) (s_p l) (s_pe l)
    (flat2 (sl_n l) K q) (flat2 (sl_n l) K pi) = Ok (Fin (cascade_dr_spec l n L K act q pi)).
Proof.
  intros Hb H Hc HK Ha Hp. unfold cascade_dr_value. rewrite check_cascade_dr_rows by auto. simpl.
  rewrite (block_slates l n L) by auto. rewrite cascade_rounds by auto. simpl. unfold per_slate.
  rewrite nsum_tabF, (block_slates l n L) by auto. destruct Hb as (Hn & HL & Hl & _).
  unfold nnat. rewrite ndiv_Fin by (apply INR_ne; auto). do 2 f_equal. unfold cascade_dr_spec, avg. f_equal.
  rewrite Hl, sumn_block. apply sumn_ext. intros i Hi. apply sumn_ext. intros k Hk.
  destruct (divmod_block i k L Hk) as [-> ->]. reflexivity.
Qed.
