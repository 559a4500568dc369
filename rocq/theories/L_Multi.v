(** * L_Multi: lemmas about the multi-logger estimators. *)

From Coq Require Import Reals List ZArith Lia Lra Bool Sorted.
From Verif Require Import Num NpList M_Utils M_Estimators M_Slate M_Multi S_Base S_Prob S_Estimators S_Env
  S_Slate S_Multi L_Num L_Base L_Prob L_Estimators L_Unbiased L_Slate.
Import ListNotations.
Open Scope R_scope.

(** ** Rounds of one stratum *)

Definition sel (n : nat) (m : nat -> bool) : list nat := filter m (seq 0 n).
Definition lsum (f : nat -> R) (l : list nat) : R := fold_right (fun i acc => f i + acc) 0 l.

Lemma lsum_app f a b : lsum f (a ++ b) = lsum f a + lsum f b.
Proof. induction a; simpl; [lra|]. unfold lsum in *. simpl. rewrite IHa. lra. Qed.

Lemma lsum_sel f n m : lsum f (sel n m) = sumn n (fun i => if m i then f i else 0).
Proof.
  induction n. reflexivity.
  unfold sel in *. rewrite seq_S, filter_app, lsum_app, IHn. cbn [sumn plus filter].
  destruct (m n); unfold lsum; simpl; lra.
Qed.

Lemma nsum_map_Fin f l : nsum (map (fun i => Fin (f i)) l) = Fin (lsum f l).
Proof. induction l; simpl; auto. unfold nsum in *. simpl. rewrite IHl. reflexivity. Qed.

Lemma len_sel n m : INR (length (sel n m)) = sumn n (fun i => if m i then 1 else 0).
Proof.
  rewrite <- (lsum_sel (fun _ => 1)). induction (sel n m). reflexivity.
  cbn [length]. rewrite S_INR, IHl. unfold lsum. simpl. lra.
Qed.

Lemma mask_get_tab {A} n m (f : nat -> A) : mask_get (tab n m) (tab n f) = Ok (map f (sel n m)).
Proof.
  unfold mask_get. rewrite !tab_length, Nat.eqb_refl, combine_tab. f_equal. unfold sel, tab.
  induction (seq 0 n); simpl; auto. destruct (m a); simpl; rewrite IHl; auto.
Qed.

Lemma bcast2_map {A B C D} (f : A -> B -> C) (g : D -> A) (h : D -> B) l :
  bcast2 f (map g l) (map h l) = Ok (map (fun d => f (g d) (h d)) l).
Proof.
  rewrite bcast2_same by (rewrite !map_length; auto). f_equal.
  induction l; simpl; auto. f_equal; auto.
Qed.

Definition inb (g : nat -> nat) (k i : nat) : bool := Nat.eqb (g i) k.

Lemma member_inb g k i x : (if inb g k i then x else 0) = member g k i * x.
Proof.
  unfold inb, member. destruct (Nat.eqb_spec (g i) k); destruct (Nat.eq_dec (g i) k); try lra; contradiction.
Qed.

Lemma lsum_st n g z k : lsum z (sel n (inb g k)) = st_sum n g z k.
Proof. rewrite lsum_sel. apply sumn_ext. intros. apply member_inb. Qed.
Lemma len_st n g k : INR (length (sel n (inb g k))) = st_size n g k.
Proof. rewrite len_sel. apply sumn_ext. intros. rewrite member_inb. lra. Qed.

Lemma st_size_pos n g k i : (i < n)%nat -> g i = k -> 0 < st_size n g k.
Proof.
  intros Hi E. apply (sumn_pos n _ i); auto.
  - intros j _. unfold member. destruct (Nat.eq_dec (g j) k); lra.
  - unfold member. destruct (Nat.eq_dec (g i) k); [lra|contradiction].
Qed.

Lemma nvar_st n g z k : 0 < st_size n g k ->
  nvar (map (fun i => Fin (z i)) (sel n (inb g k))) = Fin (st_var n g z k).
Proof.
  intros Hp. unfold nvar, nmean. rewrite nsum_map_Fin, !map_length. unfold nnat. rewrite len_st.
  rewrite ndiv_Fin by lra. rewrite lsum_st, map_map. fold (st_mean n g z k).
  rewrite (map_ext _ (fun i => Fin ((z i - st_mean n g z k) * (z i - st_mean n g z k)))) by reflexivity.
  rewrite nsum_map_Fin, lsum_st. rewrite ndiv_Fin by lra. reflexivity.
Qed.

Lemma st_var_nonneg n g z k : 0 < st_size n g k -> 0 <= st_var n g z k.
Proof.
  intros H. unfold st_var. apply Rmult_le_pos.
  - apply sumn_nonneg. intros i _. unfold member. destruct (Nat.eq_dec (g i) k).
    + set (d := z i - _). nra. + lra.
  - apply Rlt_le, Rinv_0_lt_compat; auto.
Qed.

Lemma mask_labels l g k : map (fun s => Z.eqb s (Z.of_nat k)) (labels l g) = tab (lg_n l) (inb g k).
Proof.
  unfold labels, tabZ. rewrite map_tab. apply tab_ext. intros i _. unfold inb.
  destruct (Nat.eqb_spec (g i) k) as [->|H]. apply Z.eqb_refl. apply Z.eqb_neq. lia.
Qed.

(** ** np.unique on labels *)

Lemma sorted_lt_ext (a b : list Z) : StronglySorted Z.lt a -> StronglySorted Z.lt b ->
  (forall z, In z a <-> In z b) -> a = b.
Proof.
  revert b. induction a as [|x a IH]; intros b Ha Hb H.
  - destruct b as [|y b]; auto. destruct (proj2 (H y)); simpl; auto.
  - destruct b as [|y b]. destruct (proj1 (H x)); simpl; auto.
    inversion Ha as [|? ? Ha1 Ha2]; subst. inversion Hb as [|? ? Hb1 Hb2]; subst.
    rewrite Forall_forall in Ha2, Hb2.
    assert (x = y) as ->.
    { destruct (proj1 (H x) (or_introl eq_refl)) as [E|E]; auto.
      destruct (proj2 (H y) (or_introl eq_refl)) as [E'|E']; auto.
      specialize (Hb2 _ E). specialize (Ha2 _ E'). lia. }
    f_equal. apply IH; auto. intros z. split; intros Hz.
    + destruct (proj1 (H z) (or_intror Hz)) as [<-|]; auto. specialize (Ha2 _ Hz). lia.
    + destruct (proj2 (H z) (or_intror Hz)) as [<-|]; auto. specialize (Hb2 _ Hz). lia.
Qed.

Lemma seq_sorted j m : StronglySorted Z.lt (map Z.of_nat (seq j m)).
Proof.
  revert j; induction m; intros j; simpl; constructor; auto.
  rewrite Forall_forall. intros z Hz. apply in_map_iff in Hz as (i & <- & Hi).
  apply in_seq in Hi. lia.
Qed.

Lemma unique_labels l g S : contiguous (lg_n l) g S ->
  np_unique (labels l g) = map Z.of_nat (seq 0 S).
Proof.
  intros [H1 H2]. apply sorted_lt_ext. apply np_unique_sorted. apply seq_sorted.
  intros z. rewrite np_unique_In. unfold labels, tabZ. rewrite In_tab, in_map_iff. split.
  - intros (i & Hi & <-). exists (g i). split; auto. apply in_seq. specialize (H1 i Hi). lia.
  - intros (k & <- & Hk). apply in_seq in Hk. destruct (H2 k) as (i & Hi & <-); eauto. lia.
Qed.

Lemma counts_labels l g S : contiguous (lg_n l) g S ->
  map nnat (np_unique_counts (labels l g)) = tabF S (st_size (lg_n l) g).
Proof.
  intros H. unfold np_unique_counts. rewrite (unique_labels _ _ _ H), !map_map.
  unfold tabF, tab. apply map_ext. intros k. unfold nnat. f_equal. rewrite <- len_st. f_equal.
  unfold labels, tabZ, tab, sel. induction (seq 0 (lg_n l)); simpl; auto.
  unfold inb at 1. destruct (Nat.eqb_spec (g a) k).
  - subst. rewrite Z.eqb_refl. simpl. auto.
  - replace (Z.eqb (Z.of_nat k) (Z.of_nat (g a))) with false; auto. symmetry; apply Z.eqb_neq; lia.
Qed.

(** ** The loop over strata *)

Lemma np_set_tab {A} S (f : nat -> A) k v : (k < S)%nat ->
  np_set (tab S f) (Z.of_nat k) v = Ok (tab S (fun j => if Nat.eqb j k then v else f j)).
Proof.
  intros Hk. unfold np_set. rewrite tab_length.
  replace (Z.ltb (Z.of_nat k) 0) with false by (symmetry; apply Z.ltb_ge; lia).
  replace (Z.leb 0 (Z.of_nat k)) with true by (symmetry; apply Z.leb_le; lia).
  replace (Z.ltb (Z.of_nat k) (Z.of_nat S)) with true by (symmetry; apply Z.ltb_lt; lia).
  cbn [andb]. rewrite Nat2Z.id. f_equal. unfold tab.
  replace (seq 0 S) with (seq 0 k ++ k :: seq (Datatypes.S k) (S - k - 1)).
  2:{ replace S with (k + (1 + (S - k - 1)))%nat at 2 by lia. rewrite seq_app. simpl. f_equal. }
  rewrite !map_app. cbn [map]. rewrite Nat.eqb_refl.
  rewrite firstn_app, skipn_app, map_length, seq_length.
  rewrite firstn_all2 by (rewrite map_length, seq_length; lia).
  rewrite skipn_all2 by (rewrite map_length, seq_length; lia).
  replace (Datatypes.S k - k)%nat with 1%nat by lia. rewrite Nat.sub_diag. cbn [firstn skipn app].
  rewrite app_nil_r. f_equal; [|f_equal].
  - apply map_ext_in. intros j Hj. apply in_seq in Hj.
    destruct (Nat.eqb_spec j k); auto; lia.
  - apply map_ext_in. intros j Hj. apply in_seq in Hj.
    destruct (Nat.eqb_spec j k); auto; lia.
Qed.

Lemma stratum_vars_tab values l g S (vs : nat -> list num) :
  (forall k, (k < S)%nat -> values (tab (lg_n l) (inb g k)) = Ok (vs k)) ->
  forall d j c, (j + d = S)%nat ->
  stratum_vars values (labels l g) (map Z.of_nat (seq j d))
     (tab S (fun k => if Nat.ltb k j then nvar (vs k) else c k))
  = Ok (tab S (fun k => nvar (vs k))).
Proof.
  intros Hv. induction d; intros j c Hj; cbn [seq map stratum_vars].
  - f_equal. apply tab_ext. intros i Hi. destruct (Nat.ltb_spec i j); auto; lia.
  - rewrite mask_labels, Hv by lia. cbn [bind]. rewrite np_set_tab by lia. cbn [bind].
    rewrite <- (IHd (Datatypes.S j) c) by lia. f_equal. apply tab_ext. intros i Hi.
    destruct (Nat.eqb_spec i j); destruct (Nat.ltb_spec i j); destruct (Nat.ltb_spec i (Datatypes.S j));
      subst; auto; lia.
Qed.

(** A label at least as large as the number of distinct labels makes the assignment fail. *)
Lemma stratum_vars_gap values l g (vs : list bool -> list num) ks var_k :
  (forall mask, length mask = lg_n l -> values mask = Ok (vs mask)) ->
  (forall k, In k ks -> (0 <= k)%Z) ->
  (exists k, In k ks /\ (Z.of_nat (length var_k) <= k)%Z) ->
  stratum_vars values (labels l g) ks var_k = Err IndexError.
Proof.
  intros Hv. revert var_k. induction ks as [|k ks IH]; intros var_k Hk (k0 & H0 & Hge).
  - destruct H0.
  - cbn [stratum_vars]. rewrite Hv.
    2:{ rewrite map_length. unfold labels, tabZ. apply tab_length. }
    cbn [bind]. unfold np_set. specialize (Hk k (or_introl eq_refl)) as Hk0.
    replace (Z.ltb k 0) with false by (symmetry; apply Z.ltb_ge; lia).
    replace (Z.leb 0 k) with true by (symmetry; apply Z.leb_le; lia). cbn [andb].
    destruct (Z.ltb_spec k (Z.of_nat (length var_k))) as [Hlt|]; [|reflexivity].
    cbn [bind]. apply IH.
    + intros; apply Hk; simpl; auto.
    + destruct H0 as [->|H0]; [lia|]. exists k0. split; auto.
      rewrite app_length. cbn [length]. rewrite firstn_length, skipn_length. lia.
Qed.

Lemma gap_unique l g : has_gap (lg_n l) g ->
  exists k, In k (np_unique (labels l g)) /\ (Z.of_nat (length (np_unique (labels l g))) <= k)%Z.
Proof.
  intros (k & i & Hi & Hlt & Hno).
  set (u := np_unique (labels l g)).
  destruct (Exists_dec (fun z => (Z.of_nat (length u) <= z)%Z) u) as [HE|HE].
  { intros z. destruct (Z_le_dec (Z.of_nat (length u)) z); auto. }
  { apply Exists_exists in HE. auto. }
  exfalso.
  assert (Hin : forall z, In z u <-> exists j, (j < lg_n l)%nat /\ Z.of_nat (g j) = z).
  { intros z. unfold u. rewrite np_unique_In. unfold labels, tabZ. apply In_tab. }
  assert (Hb : forall z, In z u -> (z < Z.of_nat (length u))%Z).
  { intros z Hz. destruct (Z_lt_dec z (Z.of_nat (length u))); auto. exfalso. apply HE.
    apply Exists_exists. exists z. split; auto. lia. }
  assert (Hincl : incl (map Z.of_nat (seq 0 (length u))) u).
  { apply NoDup_length_incl.
    - apply np_unique_NoDup.
    - rewrite map_length, seq_length. lia.
    - intros z Hz. specialize (Hb z Hz). apply Hin in Hz as (j & _ & <-).
      apply in_map. apply in_seq. lia. }
  assert (Hgi : In (Z.of_nat (g i)) u) by (apply Hin; eauto).
  specialize (Hb _ Hgi).
  destruct (proj1 (Hin (Z.of_nat k))) as (j & Hj & E).
  { apply Hincl. apply in_map, in_seq. lia. }
  apply (Hno j Hj). lia.
Qed.

(** ** Weights *)

Lemma stratum_weights_ok n S sz v :
  (forall k, (k < S)%nat -> v k <> 0) -> sumn S (fun k => sz k / v k) <> 0 ->
  forall cs, map nnat cs = tabF S sz ->
  stratum_weights n cs (tabF S v)
  = Ok (tabF S (fun k => INR n / (v k * sumn S (fun j => sz j / v j)))).
Proof.
  intros Hv Hs cs Hc. unfold stratum_weights. rewrite Hc.
  rewrite (bcast2_tabF ndiv Rdiv) by (intros; apply ndiv_Fin; auto). cbn [bind].
  rewrite nsum_tabF. f_equal. unfold tabF. rewrite map_tab. apply tab_ext. intros k Hk.
  unfold nnat. rewrite nmul_Fin, ndiv_Fin; auto.
Qed.

Lemma inf_sign_pos a : 0 < a -> inf_sign a = PInf.
Proof. intros. unfold inf_sign. rewrite (proj2 (Rltb_true 0 a)) by auto. reflexivity. Qed.

Lemma nsum_PInf l : (forall x, In x l -> x = PInf \/ exists a, x = Fin a) -> In PInf l -> nsum l = PInf.
Proof.
  induction l as [|x l IH]; intros H Hin. destruct Hin.
  unfold nsum in *. simpl.
  assert (Hl : forall y, In y l -> y = PInf \/ exists a, y = Fin a) by (intros; apply H; simpl; auto).
  assert (Hs : fold_right nadd (Fin 0) l = PInf \/ exists a, fold_right nadd (Fin 0) l = Fin a).
  { clear -Hl. induction l; simpl; eauto. destruct IHl as [->|(b & ->)].
    - intros; apply Hl; simpl; auto.
    - destruct (Hl a (or_introl eq_refl)) as [->|(c & ->)]; auto.
    - destruct (Hl a (or_introl eq_refl)) as [->|(c & ->)]; simpl; eauto. }
  destruct Hin as [->|Hin].
  - destruct Hs as [->|(b & ->)]; reflexivity.
  - rewrite (IH Hl Hin). destruct (H x (or_introl eq_refl)) as [->|(c & ->)]; reflexivity.
Qed.

Lemma stratum_weights_zero n S sz v k :
  (forall j, (j < S)%nat -> 0 < sz j) -> (k < S)%nat -> v k = 0 ->
  forall cs, map nnat cs = tabF S sz ->
  exists w, stratum_weights n cs (tabF S v) = Ok (tab S w) /\ w k = NaN.
Proof.
  intros Hsz Hk Hz cs Hc. unfold stratum_weights. rewrite Hc. unfold tabF at 1 2. rewrite bcast2_tab.
  cbn [bind]. rewrite nsum_PInf.
  - unfold tabF. rewrite map_tab. eexists. split. reflexivity. cbv beta. rewrite Hz.
    unfold nmul, inf_sign. rdec; reflexivity.
  - intros x Hx. apply In_tab in Hx as (j & Hj & <-). simpl. destruct (Reqb (v j) 0) eqn:E; eauto.
    rewrite inf_sign_pos; auto.
  - apply In_tab. exists k. split; auto. simpl. rewrite Hz, Reqb_refl. apply inf_sign_pos; auto.
Qed.

Lemma weights_lookup l g S (w : nat -> num) : contiguous (lg_n l) g S ->
  mapM (np_get (tab S w)) (labels l g) = Ok (tab (lg_n l) (fun i => w (g i))).
Proof.
  intros [H _]. unfold labels, tabZ. apply mapM_tab. intros i Hi. apply np_get_tab. auto.
Qed.

Lemma weights_lookupF l g S (w : nat -> R) : contiguous (lg_n l) g S ->
  mapM (np_get (tabF S w)) (labels l g) = Ok (tabF (lg_n l) (fun i => w (g i))).
Proof. intros. unfold tabF at 1. rewrite weights_lookup; auto. Qed.

(** ** Algebra of the inverse-variance average *)

Lemma sumn_strata n g S (F : nat -> nat -> R) : (forall i, (i < n)%nat -> (g i < S)%nat) ->
  sumn n (fun i => F (g i) i) = sumn S (fun k => sumn n (fun i => member g k i * F k i)).
Proof.
  intros H. rewrite sumn_swap. apply sumn_ext. intros i Hi.
  rewrite (sumn_term S _ (g i)).
  - unfold member. destruct (Nat.eq_dec (g i) (g i)); [lra|contradiction].
  - auto.
  - intros k _ Hk. unfold member. destruct (Nat.eq_dec (g i) k); [congruence|lra].
Qed.

Lemma st_size_total n g S : (forall i, (i < n)%nat -> (g i < S)%nat) ->
  sumn S (st_size n g) = INR n.
Proof.
  intros H. unfold st_size.
  rewrite (sumn_ext S _ (fun k => sumn n (fun i => member g k i * 1))).
  2:{ intros. apply sumn_ext. intros; lra. }
  rewrite <- (sumn_strata n g S (fun _ _ => 1) H). rewrite sumn_const. lra.
Qed.

Lemma ivavg_ok n g S z y : (0 < n)%nat -> (forall i, (i < n)%nat -> (g i < S)%nat) ->
  sumn S (fun j => st_size n g j / st_var n g z j) <> 0 ->
  (forall k, (k < S)%nat -> st_var n g z k <> 0) ->
  avg n (fun i => y i * (INR n / (st_var n g z (g i) * sumn S (fun j => st_size n g j / st_var n g z j))))
  = inverse_variance_average n S g z y.
Proof.
  intros Hn Hg HW Hv. set (W := sumn S _) in *. unfold avg, inverse_variance_average. fold W.
  pose proof (INR_ne n Hn).
  rewrite (sumn_ext n _ (fun i => (fun k i => y i / st_var n g z k) (g i) i * (INR n / W))).
  2:{ intros i Hi. cbv beta. field. split; auto. }
  rewrite sumn_scal_r. rewrite (sumn_strata n g S (fun k i => y i / st_var n g z k) Hg).
  rewrite (sumn_ext S _ (fun k => st_sum n g y k / st_var n g z k)).
  2:{ intros k Hk. unfold st_sum. rewrite <- sumn_div. apply sumn_ext. intros. unfold Rdiv; lra. }
  field. split; auto.
Qed.

Lemma contiguous_pos n g S : (0 < n)%nat -> contiguous n g S -> (0 < S)%nat.
Proof. intros Hn [H _]. specialize (H 0%nat Hn). lia. Qed.

Lemma W_pos n g S z : (0 < n)%nat -> contiguous n g S ->
  (forall k, (k < S)%nat -> 0 < st_var n g z k) ->
  0 < sumn S (fun j => st_size n g j / st_var n g z j).
Proof.
  intros Hn Hc Hv. apply sumn_allpos. eapply contiguous_pos; eauto.
  intros k Hk. destruct (proj2 Hc k Hk) as (i & Hi & E). pose proof (st_size_pos n g k i Hi E).
  pose proof (Hv k Hk). unfold Rdiv. apply Rmult_lt_0_compat; auto. apply Rinv_0_lt_compat; auto.
Qed.

Lemma paper_weight_sum n g S z : (0 < n)%nat -> contiguous n g S ->
  (forall k, (k < S)%nat -> 0 < st_var n g z k) ->
  sumn S (fun k => st_size n g k * paper_weight n S g z k) = INR n.
Proof.
  intros Hn Hc Hv. pose proof (W_pos n g S z Hn Hc Hv) as HW. unfold paper_weight.
  set (W := sumn S (fun j => st_size n g j / st_var n g z j)) in *.
  rewrite (sumn_ext S _ (fun k => st_size n g k / st_var n g z k * (INR n / W))).
  2:{ intros k Hk. pose proof (Hv k Hk). field. lra. }
  rewrite sumn_scal_r. fold W. field. lra.
Qed.

Lemma ivavg_equal n g S z y v : (0 < n)%nat -> contiguous n g S -> 0 < v ->
  (forall k, (k < S)%nat -> st_var n g z k = v) ->
  inverse_variance_average n S g z y = avg n y.
Proof.
  intros Hn Hc Hv He. pose proof (INR_pos n Hn).
  rewrite <- ivavg_ok; auto; try (apply Hc).
  - apply avg_ext. intros i Hi.
    rewrite (sumn_ext S _ (fun j => st_size n g j / v)) by (intros; rewrite He; auto).
    rewrite sumn_div, (st_size_total n g S) by (apply Hc). rewrite He by (apply Hc; auto).
    field. lra.
  - apply Rgt_not_eq. apply W_pos; auto. intros; rewrite He; auto.
  - intros. rewrite He; auto. lra.
Qed.

(** ** Round rewards of the weighted estimators *)

Lemma clipped_weights lam l : accepted l ->
  map (fun w => nmin w (lam_num lam)) (tabF (lg_n l) (weight l))
  = tabF (lg_n l) (fun i => clip lam (weight l i)).
Proof. intros _. apply map_tabF. intros; apply clip_num. Qed.

Lemma zeros_unique l g S : contiguous (lg_n l) g S ->
  map (fun _ : Z => Fin 0) (np_unique (labels l g)) = tab S (fun _ => Fin 0).
Proof. intros H. rewrite (unique_labels _ _ _ H), map_map. reflexivity. Qed.

Lemma ipw_vars lam l g S : contiguous (lg_n l) g S ->
  stratum_vars (fun mask => r <- mask_get mask (rewards l) ;;
                            w <- mask_get mask (tabF (lg_n l) (fun i => clip lam (weight l i))) ;;
                            bcast2 nmul r w)
    (labels l g) (np_unique (labels l g)) (map (fun _ : Z => Fin 0) (np_unique (labels l g)))
  = Ok (tabF S (st_var (lg_n l) g (ipw_term lam l))).
Proof.
  intros Hc. rewrite (zeros_unique _ _ _ Hc), (unique_labels _ _ _ Hc).
  pose proof (stratum_vars_tab (fun mask => r <- mask_get mask (rewards l) ;;
        w <- mask_get mask (tabF (lg_n l) (fun i => clip lam (weight l i))) ;; bcast2 nmul r w)
        l g S (fun k => map (fun i => Fin (ipw_term lam l i)) (sel (lg_n l) (inb g k)))) as HS.
  unfold tabF at 2.
  assert (E : tab S (fun k => nvar (map (fun i => Fin (ipw_term lam l i)) (sel (lg_n l) (inb g k))))
           = tab S (fun i => Fin (st_var (lg_n l) g (ipw_term lam l) i))).
  { apply tab_ext. intros k Hk. apply nvar_st. destruct (proj2 Hc k Hk) as (i & Hi & Ei).
    eapply st_size_pos; eauto. }
  rewrite <- E. apply (HS (fun k Hk => ltac:(
      unfold rewards, tabF; repeat (first [rewrite mask_get_tab | rewrite bcast2_map]; cbn [bind]); reflexivity)) S 0%nat (fun _ => Fin 0) eq_refl).
Qed.

Lemma dr_vars lam l g S : contiguous (lg_n l) g S ->
  stratum_vars (fun mask => e <- mask_get mask (tabF (lg_n l) (q_pi l)) ;;
                            w <- mask_get mask (tabF (lg_n l) (fun i => clip lam (weight l i))) ;;
                            r <- mask_get mask (rewards l) ;; q <- mask_get mask (tabF (lg_n l) (q_at l)) ;;
                            d <- bcast2 nsub r q ;; c <- bcast2 nmul w d ;;
                            bcast2 nadd e c)
    (labels l g) (np_unique (labels l g)) (map (fun _ : Z => Fin 0) (np_unique (labels l g)))
  = Ok (tabF S (st_var (lg_n l) g (dr_term lam l))).
Proof.
  intros Hc. rewrite (zeros_unique _ _ _ Hc), (unique_labels _ _ _ Hc).
  match goal with |- stratum_vars ?v _ _ _ = _ =>
    pose proof (stratum_vars_tab v l g S (fun k => map (fun i => Fin (dr_term lam l i)) (sel (lg_n l) (inb g k)))) as HS end.
  assert (E : tab S (fun k => nvar (map (fun i => Fin (dr_term lam l i)) (sel (lg_n l) (inb g k))))
           = tabF S (st_var (lg_n l) g (dr_term lam l))).
  { apply tab_ext. intros k Hk. apply nvar_st. destruct (proj2 Hc k Hk) as (i & Hi & Ei).
    eapply st_size_pos; eauto. }
  rewrite <- E. apply (HS (fun k Hk => ltac:(
      unfold rewards, tabF; repeat (first [rewrite mask_get_tab | rewrite bcast2_map]; cbn [bind]); reflexivity)) S 0%nat (fun _ => Fin 0) eq_refl).
Qed.

Lemma mw_ipw_round_ok lam l g S : accepted l -> contiguous (lg_n l) g S ->
  (forall k, (k < S)%nat -> 0 < st_var (lg_n l) g (ipw_term lam l) k) ->
  mw_ipw_round (lam_num lam) (labels l g) (rewards l) (actions l) (pscores l) (policy l) (positions l)
  = Ok (tabF (lg_n l) (fun i => ipw_term lam l i * paper_weight (lg_n l) S g (ipw_term lam l) (g i))).
Proof.
  intros H Hc Hv. unfold mw_ipw_round. rewrite weights_ok by auto. cbn [bind]. cbv zeta.
  rewrite clipped_weights by auto. rewrite (ipw_vars lam l g S Hc). cbn [bind].
  rewrite len_actions.
  rewrite (stratum_weights_ok _ _ (st_size (lg_n l) g) _).
  2:{ intros k Hk. specialize (Hv k Hk). lra. }
  2:{ apply Rgt_not_eq, W_pos; auto. apply H. }
  2:{ apply counts_labels; auto. }
  cbn [bind]. unfold rewards at 1. rewrite (bcast2_tabF nmul Rmult) by reflexivity. cbn [bind].
  rewrite weights_lookupF by auto. cbn [bind].
  rewrite (bcast2_tabF nmul Rmult) by reflexivity. reflexivity.
Qed.

Lemma mw_dr_round_ok lam l g S : accepted l -> contiguous (lg_n l) g S ->
  (forall k, (k < S)%nat -> 0 < st_var (lg_n l) g (dr_term lam l) k) ->
  mw_dr_round (lam_num lam) (labels l g) (rewards l) (actions l) (pscores l) (policy l) (model l) (positions l)
  = Ok (tabF (lg_n l) (fun i => q_pi l i + dr_corr lam l i * paper_weight (lg_n l) S g (dr_term lam l) (g i))).
Proof.
  intros H Hc Hv. unfold mw_dr_round. rewrite weights_ok by auto. cbn [bind]. cbv zeta.
  rewrite clipped_weights by auto. rewrite q_factual_ok by auto. cbn [bind].
  rewrite len_actions, baseline_ok by auto. cbn [bind].
  rewrite (dr_vars lam l g S Hc). cbn [bind].
  rewrite (stratum_weights_ok _ _ (st_size (lg_n l) g) _).
  2:{ intros k Hk. specialize (Hv k Hk). lra. }
  2:{ apply Rgt_not_eq, W_pos; auto. apply H. }
  2:{ apply counts_labels; auto. }
  cbn [bind]. unfold rewards at 1. rewrite (bcast2_tabF nsub Rminus) by reflexivity. cbn [bind].
  rewrite (bcast2_tabF nmul Rmult) by reflexivity. cbn [bind].
  rewrite weights_lookupF by auto. cbn [bind].
  rewrite (bcast2_tabF nmul Rmult) by reflexivity. cbn [bind].
  apply (iadd_tabF (lg_n l) (q_pi l)
    (fun i => dr_corr lam l i * paper_weight (lg_n l) S g (dr_term lam l) (g i))).
Qed.

(** Zero variance in one stratum. *)
Lemma mw_ipw_round_zero lam l g S k : accepted l -> contiguous (lg_n l) g S ->
  (k < S)%nat -> st_var (lg_n l) g (ipw_term lam l) k = 0 ->
  exists rr, mw_ipw_round (lam_num lam) (labels l g) (rewards l) (actions l) (pscores l) (policy l) (positions l)
             = Ok rr /\ In NaN rr.
Proof.
  intros H Hc Hk Hz. unfold mw_ipw_round. rewrite weights_ok by auto. cbn [bind]. cbv zeta.
  rewrite clipped_weights by auto. rewrite (ipw_vars lam l g S Hc). cbn [bind].
  rewrite len_actions.
  destruct (stratum_weights_zero (lg_n l) S (st_size (lg_n l) g) (st_var (lg_n l) g (ipw_term lam l)) k) with (2 := Hk) (3 := Hz)
     (cs := np_unique_counts (labels l g)) as (w & Hw & Hwk).
  { intros j Hj. destruct (proj2 Hc j Hj) as (i & Hi & Ei). eapply st_size_pos; eauto. }
  { apply counts_labels; auto. }
  rewrite Hw. cbn [bind]. unfold rewards at 1. rewrite (bcast2_tabF nmul Rmult) by reflexivity. cbn [bind].
  rewrite weights_lookup by auto. cbn [bind].
  unfold tabF. rewrite bcast2_tab. eexists. split. reflexivity.
  destruct (proj2 Hc k Hk) as (i & Hi & Ei). apply In_tab. exists i. split; auto.
  rewrite Ei, Hwk. apply nmul_NaN_r.
Qed.

Lemma mw_dr_round_zero lam l g S k : accepted l -> contiguous (lg_n l) g S ->
  (k < S)%nat -> st_var (lg_n l) g (dr_term lam l) k = 0 ->
  exists rr, mw_dr_round (lam_num lam) (labels l g) (rewards l) (actions l) (pscores l) (policy l) (model l) (positions l)
             = Ok rr /\ In NaN rr.
Proof.
  intros H Hc Hk Hz. unfold mw_dr_round. rewrite weights_ok by auto. cbn [bind]. cbv zeta.
  rewrite clipped_weights by auto. rewrite q_factual_ok by auto. cbn [bind].
  rewrite len_actions, baseline_ok by auto. cbn [bind].
  rewrite (dr_vars lam l g S Hc). cbn [bind].
  destruct (stratum_weights_zero (lg_n l) S (st_size (lg_n l) g) (st_var (lg_n l) g (dr_term lam l)) k) with (2 := Hk) (3 := Hz)
     (cs := np_unique_counts (labels l g)) as (w & Hw & Hwk).
  { intros j Hj. destruct (proj2 Hc j Hj) as (i & Hi & Ei). eapply st_size_pos; eauto. }
  { apply counts_labels; auto. }
  rewrite Hw. cbn [bind]. unfold rewards at 1. rewrite (bcast2_tabF nsub Rminus) by reflexivity. cbn [bind].
  rewrite (bcast2_tabF nmul Rmult) by reflexivity. cbn [bind].
  rewrite weights_lookup by auto. cbn [bind].
  unfold tabF. rewrite bcast2_tab. cbn [bind].
  unfold iadd. rewrite !tab_length, Nat.eqb_refl. cbn [orb]. rewrite bcast2_tab.
  eexists. split. reflexivity.
  destruct (proj2 Hc k Hk) as (i & Hi & Ei). apply In_tab. exists i. split; auto.
  rewrite Ei, Hwk, nmul_NaN_r. apply nadd_NaN_r.
Qed.

(** A gap in the labels. *)
Lemma mask_get_any {A} n (mask : list bool) (f : nat -> A) : length mask = n ->
  mask_get mask (tab n f) = Ok (map f (sel n (fun i => nth i mask false))).
Proof.
  intros H. rewrite (list_tab mask false) at 1. rewrite H. apply mask_get_tab.
Qed.

Lemma labels_nonneg l g k : In k (np_unique (labels l g)) -> (0 <= k)%Z.
Proof.
  rewrite np_unique_In. unfold labels, tabZ. rewrite In_tab. intros (i & _ & <-). lia.
Qed.

Lemma mw_ipw_round_gap lam l g : accepted l -> has_gap (lg_n l) g ->
  mw_ipw_round (lam_num lam) (labels l g) (rewards l) (actions l) (pscores l) (policy l) (positions l)
  = Err IndexError.
Proof.
  intros H Hg. unfold mw_ipw_round. rewrite weights_ok by auto. cbn [bind]. cbv zeta.
  rewrite clipped_weights by auto.
  erewrite (stratum_vars_gap _ l g). reflexivity.
  - intros mask Hm. unfold rewards, tabF. repeat (first [rewrite mask_get_any by auto | rewrite bcast2_map]; cbn [bind]). reflexivity.
  - apply labels_nonneg.
  - rewrite map_length. apply gap_unique; auto.
Qed.

Lemma mw_dr_round_gap lam l g : accepted l -> has_gap (lg_n l) g ->
  mw_dr_round (lam_num lam) (labels l g) (rewards l) (actions l) (pscores l) (policy l) (model l) (positions l)
  = Err IndexError.
Proof.
  intros H Hg. unfold mw_dr_round. rewrite weights_ok by auto. cbn [bind]. cbv zeta.
  rewrite clipped_weights by auto. rewrite q_factual_ok by auto. cbn [bind].
  rewrite len_actions, baseline_ok by auto. cbn [bind].
  erewrite (stratum_vars_gap _ l g). reflexivity.
  - intros mask Hm. unfold rewards, tabF. repeat (first [rewrite mask_get_any by auto | rewrite bcast2_map]; cbn [bind]). reflexivity.
  - apply labels_nonneg.
  - rewrite map_length. apply gap_unique; auto.
Qed.

(** ** Public methods *)

Lemma m_check_ok l arg st qopt :
  accepted l -> position_arg l arg -> (st = None \/ exists g, st = Some (labels l g)) ->
  (qopt = None \/ qopt = Some (model l)) ->
  check_multi_loggers_ope_inputs (policy l) arg (Some (actions l)) (Some (rewards l)) st
    (Some (pscores l)) qopt = Ok tt.
Proof.
  intros H Harg Hst Hq. unfold check_multi_loggers_ope_inputs. rewrite check_ok by auto. cbn [bind].
  destruct Hst as [->|(g & ->)]; auto.
  unfold policy, tab3F, labels, tabZ at 1. rewrite !tab_length, Nat.eqb_refl. cbn [negb raise_if bind].
  destruct (zminl_tab (lg_n l) g (acc_n l H)) as (z & Hz & Hz0). rewrite Hz. cbn [bind].
  apply Z.leb_le in Hz0. rewrite Hz0. reflexivity.
Qed.

Lemma m_ipw_like_ok use_est round st l arg ps eps :
  accepted l -> position_arg l arg -> pscore_arg l use_est ps eps ->
  (st = None \/ exists g, st = Some (labels l g)) ->
  m_ipw_like use_est round st (rewards l) (actions l) (policy l) ps arg eps
  = round (pscores l) (positions l).
Proof.
  intros H Harg Hps Hst. unfold m_ipw_like. rewrite (choose_pscore_ok _ l) by auto. cbn [bind].
  rewrite m_check_ok by auto. cbn [bind]. rewrite default_position_ok by auto. reflexivity.
Qed.

Lemma m_dr_like_ok use_est round st l arg ps eps :
  accepted l -> position_arg l arg -> pscore_arg l use_est ps eps ->
  (st = None \/ exists g, st = Some (labels l g)) ->
  m_dr_like use_est round st (rewards l) (actions l) (policy l) (model l) ps arg eps
  = round (pscores l) (positions l).
Proof.
  intros H Harg Hps Hst. unfold m_dr_like. rewrite (choose_pscore_ok _ l) by auto. cbn [bind].
  rewrite m_check_ok by auto. cbn [bind]. rewrite default_position_ok by auto. reflexivity.
Qed.

Lemma mn_ipw_value_ok lam use_est l arg ps eps :
  accepted l -> position_arg l arg -> pscore_arg l use_est ps eps ->
  mn_ipw_value (lam_num lam) use_est (rewards l) (actions l) (policy l) ps arg eps
  = Ok (Fin (spec_ipw lam l)).
Proof.
  intros. unfold mn_ipw_value. rewrite m_ipw_like_ok by auto.
  pose proof (ipw_round_ok lam l H) as HR. unfold ipw_round in HR. cbv zeta in HR.
  unfold mn_ipw_round. rewrite HR. unfold mean_of. cbn [bind]. rewrite nmean_tabF by (apply H). reflexivity.
Qed.

Lemma mn_dr_value_ok lam use_est l arg ps eps :
  accepted l -> position_arg l arg -> pscore_arg l use_est ps eps ->
  mn_dr_value (lam_num lam) use_est (rewards l) (actions l) (policy l) (model l) ps arg eps
  = Ok (Fin (spec_dr lam l)).
Proof.
  intros. unfold mn_dr_value. rewrite m_dr_like_ok by auto.
  pose proof (dr_round_ok lam l H) as HR. unfold dr_round in HR. cbv zeta in HR.
  unfold mn_dr_round. rewrite HR. unfold mean_of. cbn [bind]. rewrite nmean_tabF by (apply H).
  rewrite dr_sum. reflexivity.
Qed.

(** ** Unbiasedness *)

Section MEnv.
  Context {X : Type} (m : menv X) (Hm : menv_ok m).

  Lemma env_of_ok : env_ok (env_of m).
  Proof.
    constructor; simpl; intros.
    - apply Hm. - apply Hm. - apply is_dist_dmap, Hm. - apply Hm; auto. - apply Hm.
    - apply Hm; auto. - apply Hm. - apply Hm.
  Qed.

  Lemma avg_pscore_avg xk s a :
    avg (me_n m) (fun i => me_pb m (me_g m i) (fst xk) s a) = avg_pscore m xk s a.
  Proof.
    unfold avg, avg_pscore, share.
    rewrite (sumn_strata (me_n m) (me_g m) (me_S m) (fun k _ => me_pb m k (fst xk) s a)) by (apply Hm).
    rewrite <- sumn_div. apply sumn_ext. intros k Hk. rewrite sumn_scal_r. unfold st_size, Rdiv. lra.
  Qed.

  Lemma avg_pscore_pos x k s a i : (i < me_n m)%nat -> (a < me_K m)%nat ->
    0 < me_pb m (me_g m i) x s a -> 0 < avg_pscore m (x, k) s a.
  Proof.
    intros Hi Ha Hp. rewrite <- avg_pscore_avg. unfold avg. apply Rmult_lt_0_compat.
    - apply (sumn_pos _ _ i); auto. intros; apply Hm; auto.
    - apply Rinv_0_lt_compat, INR_pos, Hm.
  Qed.

  Lemma accepted_multi (pt : X * nat -> nat -> nat -> R) qh o p :
    (forall x i a, (i < me_n m)%nat -> (a < me_K m)%nat ->
       0 < me_pb m (me_g m i) x (me_s m) a -> 0 < pt (x, me_g m i) (me_s m) a) ->
    In (o, p) (log_dist (env_of m)) -> p <> 0 -> accepted (log_of (env_of m) pt qh o).
  Proof.
    intros Hpt Ho Hp. pose proof (In_dprod_opt _ _ _ _ Ho Hp) as HI.
    assert (HI' : forall i, (i < me_n m)%nat -> exists x a r, nth_error o i = Some ((x, me_g m i), a, r) /\
                  (a < me_K m)%nat /\ 0 < me_pb m (me_g m i) x (me_s m) a).
    { intros i Hi. destruct (HI i Hi) as ([[[x k] a] r] & q & E & Hq & Hq0).
      pose proof (In_round (env_of m) env_of_ok i _ _ _ _ Hq Hq0) as [Ha Hb]. simpl in Ha, Hb.
      unfold round_dist in Hq. apply In_dbind in Hq as (x' & p1 & p2 & Hx & H & ->).
      apply In_dmap in Hx as (x0 & Ex & _). subst x'.
      apply In_dbind in H as (a' & p3 & p4 & _ & H & ->).
      apply In_dmap in H as (r' & E' & _). injection E' as -> -> -> ->.
      exists x0, a', r'. auto. }
    constructor; simpl.
    - apply Hm.
    - intros i Hi. destruct (HI' i Hi) as (x & a & r & -> & Ha & _). auto.
    - intros i Hi. apply Hm.
    - intros i Hi. destruct (HI' i Hi) as (x & a & r & -> & Ha & Hb). auto.
    - intros i s Hi Hs. destruct (HI' i Hi) as (x & a & r & -> & _). simpl.
      rewrite (mo_pe1 m Hm). replace (1 - 1) with 0 by lra. rewrite Rabs_R0.
      pose proof tol_lt1; lra.
  Qed.

  Lemma expect_pooled (F : X -> nat -> R -> R) :
    expect (log_dist (env_of m)) (fun o => avg (me_n m) (fun i =>
      match nth_error o i with Some ((x, _), a, r) => F x a r | None => 0 end))
    = expect (me_ctx m) (fun x => sumn (me_K m) (fun a =>
        avg_pscore m (x, 0%nat) (me_s m) a * expect (me_rd m x (me_s m) a) (F x a))).
  Proof.
    unfold log_dist. cbn [ev_n env_of].
    rewrite (expect_dprod_avg_opt _ _ (fun _ y => match y with
       | Some ((x, _), a, r) => F x a r | None => 0 end)).
    2:{ intros i Hi. apply (is_dist_round (env_of m) env_of_ok i Hi). }
    rewrite (avg_ext _ _ (fun i => expect (me_ctx m) (fun x => sumn (me_K m) (fun a =>
        expect (me_rd m x (me_s m) a) (F x a) * me_pb m (me_g m i) x (me_s m) a)))).
    2:{ intros i Hi.
        rewrite (expect_round (env_of m) i _ (fun xk a r => F (fst xk) a r)) by (intros [x k]; reflexivity).
        cbn [ev_ctx env_of]. rewrite expect_dmap. reflexivity. }
    unfold avg, Rdiv. rewrite <- expect_sumn, <- expect_scal_r. apply expect_ext_all. intros x.
    rewrite sumn_swap, <- sumn_scal_r. apply sumn_ext. intros a Ha.
    rewrite sumn_scal. rewrite <- (avg_pscore_avg (x, 0%nat)). unfold avg. simpl. unfold Rdiv. lra.
  Qed.

  Lemma me_value_eq : policy_value (env_of m) = me_value m.
  Proof.
    unfold policy_value. cbn [ev_n ev_ctx ev_pos env_of ev_pe ev_K].
    rewrite (avg_ext _ _ (fun _ => me_value m)).
    - apply avg_const, Hm.
    - intros i Hi. rewrite expect_dmap. reflexivity.
  Qed.

  Lemma mb_ipw_unbiased qh arg :
    pooled_support m ->
    (forall o, position_arg (log_of (env_of m) (avg_pscore m) qh o) arg) ->
    expects (log_dist (env_of m))
      (fun o => let l := log_of (env_of m) (avg_pscore m) qh o in
                mb_ipw_value PInf false (rewards l) (actions l) (policy l) (Some (pscores l)) arg None)
      (me_value m).
  Proof.
    intros Hs Harg. exists (fun o => spec_ipw None (log_of (env_of m) (avg_pscore m) qh o)). split.
    - intros o p Ho Hp. cbv zeta.
      apply (mn_ipw_value_ok None false); try reflexivity; try apply Harg.
      eapply accepted_multi; eauto. intros. eapply avg_pscore_pos; eauto.
    - rewrite (expect_ext_all _ _ (fun o => avg (me_n m) (fun i =>
         match nth_error o i with
         | Some ((x, _), a, r) => (fun x a r => r * (me_pe m x a (me_s m) / avg_pscore m (x, 0%nat) (me_s m) a)) x a r
         | None => 0 end))).
      2:{ intros o. unfold spec_ipw. apply avg_ext. intros i Hi. unfold weight, clip.
          cbn [lg_r lg_pi lg_a lg_pos lg_p log_of env_of ev_pe ev_pos].
          destruct (nth_error o i) as [[[[x k] a] r]|]; simpl; try lra. reflexivity. }
      rewrite expect_pooled. unfold me_value. apply expect_ext_all. intros x. apply sumn_ext. intros a Ha.
      rewrite expect_scal_r.
      destruct (Rle_lt_or_eq_dec 0 _ (mo_pe0 m Hm x a (me_s m) Ha)) as [Hpos|Hz].
      + destruct (Hs x a Ha Hpos) as (i & Hi & Hb).
        pose proof (avg_pscore_pos x 0%nat (me_s m) a i Hi Ha Hb). field. lra.
      + rewrite <- Hz. unfold Rdiv. lra.
  Qed.

  Lemma mb_dr_unbiased (qh : X -> nat -> nat -> R) arg :
    pooled_support m ->
    (forall o, position_arg (log_of (env_of m) (avg_pscore m) (fun xk => qh (fst xk)) o) arg) ->
    expects (log_dist (env_of m))
      (fun o => let l := log_of (env_of m) (avg_pscore m) (fun xk => qh (fst xk)) o in
                mb_dr_value PInf false (rewards l) (actions l) (policy l) (model l) (Some (pscores l)) arg None)
      (me_value m).
  Proof.
    intros Hs Harg. set (L := log_of (env_of m) (avg_pscore m) (fun xk => qh (fst xk))) in *.
    exists (fun o => spec_dr None (L o)).
    assert (Hacc : forall o p, In (o, p) (log_dist (env_of m)) -> p <> 0 -> accepted (L o)).
    { intros o p Ho Hp. eapply accepted_multi; eauto. intros. eapply avg_pscore_pos; eauto. }
    split.
    - intros o p Ho Hp. cbv zeta.
      apply (mn_dr_value_ok None false); try reflexivity; try apply Harg. eapply Hacc; eauto.
    - set (Q := fun x => sumn (me_K m) (fun b => qh x b (me_s m) * me_pe m x b (me_s m))).
      rewrite (expect_ext _ _ (fun o => avg (me_n m) (fun i =>
         match nth_error o i with
         | Some ((x, _), a, r) => (fun x a r => Q x + (me_pe m x a (me_s m) / avg_pscore m (x, 0%nat) (me_s m) a)
                                    * (r - qh x a (me_s m))) x a r
         | None => 0 end))).
      2:{ intros o p Ho Hp. unfold spec_dr. rewrite <- dr_sum. apply avg_ext. intros i Hi.
          destruct (In_dprod_opt _ _ _ _ Ho Hp i Hi) as ([[[x k] a] r] & q & E & _ & _).
          unfold L. rewrite (q_pi_log (env_of m) env_of_ok _ _ _ _ _ _ _ Hi E). unfold weight, q_at, clip.
          cbn [lg_r lg_q lg_pi lg_a lg_p lg_pos log_of]. rewrite E. reflexivity. }
      rewrite expect_pooled. unfold me_value. apply expect_ext_all. intros x.
      set (W := fun a => avg_pscore m (x, 0%nat) (me_s m) a).
      assert (HW : sumn (me_K m) W = 1).
      { unfold W. rewrite (sumn_ext _ _ (fun a => avg (me_n m) (fun i => me_pb m (me_g m i) x (me_s m) a))).
        2:{ intros a Ha. rewrite <- (avg_pscore_avg (x, 0%nat)). reflexivity. }
        unfold avg. rewrite sumn_div, sumn_swap.
        rewrite (sumn_ext _ _ (fun _ => 1)) by (intros; apply Hm).
        rewrite sumn_const. pose proof (INR_pos _ (mo_n m Hm)). field. lra. }
      rewrite (sumn_ext _ _ (fun a => W a * Q x + (me_pe m x a (me_s m) * expect (me_rd m x (me_s m) a) (fun r => r)
           - qh x a (me_s m) * me_pe m x a (me_s m)))).
      + rewrite sumn_plus, sumn_scal_r, HW, sumn_minus. fold (Q x). lra.
      + intros a Ha. pose proof (mo_rd m Hm x (me_s m) a).
        rewrite expect_plus, expect_const, expect_scal, expect_minus, expect_const by auto. fold (W a).
        destruct (Rle_lt_or_eq_dec 0 _ (mo_pe0 m Hm x a (me_s m) Ha)) as [Hpos|Hz].
        * destruct (Hs x a Ha Hpos) as (i & Hi & Hb).
          pose proof (avg_pscore_pos x 0%nat (me_s m) a i Hi Ha Hb) as Hq. fold (W a) in Hq. field. lra.
        * rewrite <- Hz. unfold Rdiv. lra.
  Qed.

  Lemma mn_ipw_unbiased qh arg :
    full_support m ->
    (forall o, position_arg (log_of (env_of m) (own_pscore m) qh o) arg) ->
    expects (log_dist (env_of m))
      (fun o => let l := log_of (env_of m) (own_pscore m) qh o in
                mn_ipw_value PInf false (rewards l) (actions l) (policy l) (Some (pscores l)) arg None)
      (me_value m).
  Proof.
    intros Hs Harg. exists (fun o => spec_ipw None (log_of (env_of m) (own_pscore m) qh o)). split.
    - intros o p Ho Hp. cbv zeta.
      apply (mn_ipw_value_ok None false); try reflexivity; try apply Harg.
      eapply accepted_multi; eauto.
    - rewrite <- me_value_eq. unfold policy_value.
      cbn [ev_n ev_ctx ev_pos env_of ev_pe ev_K].
      set (G := fun (i : nat) (y : option (X * nat * nat * R)) => match y with
         | Some ((x, k), a, r) => r * (me_pe m x a (me_s m) / me_pb m k x (me_s m) a)
         | None => 0 end).
      rewrite (expect_ext_all _ _ (fun o => avg (me_n m) (fun i => G i (nth_error o i)))).
      2:{ intros o. unfold spec_ipw. apply avg_ext. intros i Hi. unfold weight, clip, G.
          cbn [lg_r lg_pi lg_a lg_pos lg_p log_of env_of ev_pe ev_pos].
          destruct (nth_error o i) as [[[[x k] a] r]|]; simpl; try lra. reflexivity. }
      unfold log_dist. cbn [ev_n env_of]. rewrite expect_dprod_avg_opt.
      2:{ intros i Hi. apply (is_dist_round (env_of m) env_of_ok i Hi). }
      apply avg_ext. intros i Hi. unfold G.
      rewrite (expect_round (env_of m) i _ (fun xk a r =>
         r * (me_pe m (fst xk) a (me_s m) / me_pb m (snd xk) (fst xk) (me_s m) a))) by (intros [x k]; reflexivity).
      cbn [ev_ctx env_of ev_K ev_pb ev_pos]. rewrite !expect_dmap. cbn [fst snd].
      apply expect_ext_all. intros x. apply sumn_ext. intros a Ha.
      rewrite expect_scal_r. unfold q_true.
      destruct (Rle_lt_or_eq_dec 0 _ (mo_pe0 m Hm x a (me_s m) Ha)) as [Hpos|Hz].
      + pose proof (Hs x a i Hi Ha Hpos). cbn [ev_rd env_of fst]. field. lra.
      + rewrite <- Hz. unfold Rdiv. lra.
  Qed.
End MEnv.

Lemma classic_gap n (g : nat -> nat) M :
  (forall k, (exists i, (i < n)%nat /\ g i = k) \/ (forall i, (i < n)%nat -> g i <> k)) ->
  (forall k, (k < M)%nat -> exists i, (i < n)%nat /\ g i = k) \/
  (exists k, (k < M)%nat /\ forall i, (i < n)%nat -> g i <> k).
Proof.
  intros Hdec. induction M. left; intros; lia.
  destruct IHM as [H|(k & Hk & H)].
  - destruct (Hdec M) as [H'|H'].
    + left. intros k Hk. destruct (Nat.eq_dec k M) as [->|]; auto. apply H; lia.
    + right. exists M. auto.
  - right. exists k. auto.
Qed.
