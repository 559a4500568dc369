(** * L_Base: sums and tabulated arrays. *)

From Coq Require Import Reals List ZArith Bool Lia Lra Permutation.
From Verif Require Import Num NpList S_Base L_Num.
Import ListNotations.
Open Scope R_scope.

(** ** sumn *)
Lemma sumn_ext n f g : (forall i, (i < n)%nat -> f i = g i) -> sumn n f = sumn n g.
Proof. induction n; simpl; intros; auto. rewrite IHn, H; auto. Qed.
Lemma sumn_plus n f g : sumn n (fun i => f i + g i) = sumn n f + sumn n g.
Proof. induction n; simpl; [lra|]. rewrite IHn; lra. Qed.
Lemma sumn_minus n f g : sumn n (fun i => f i - g i) = sumn n f - sumn n g.
Proof. induction n; simpl; [lra|]. rewrite IHn; lra. Qed.
Lemma sumn_scal n c f : sumn n (fun i => c * f i) = c * sumn n f.
Proof. induction n; simpl; [lra|]. rewrite IHn; lra. Qed.
Lemma sumn_scal_r n c f : sumn n (fun i => f i * c) = sumn n f * c.
Proof. induction n; simpl; [lra|]. rewrite IHn; lra. Qed.
Lemma sumn_div n c f : sumn n (fun i => f i / c) = sumn n f / c.
Proof. unfold Rdiv. apply sumn_scal_r. Qed.
Lemma sumn_0 n : sumn n (fun _ => 0) = 0.
Proof. induction n; simpl; lra. Qed.
Lemma sumn_zero n f : (forall i, (i < n)%nat -> f i = 0) -> sumn n f = 0.
Proof. intros. rewrite (sumn_ext n f (fun _ => 0)); auto. apply sumn_0. Qed.
Lemma sumn_const n c : sumn n (fun _ => c) = INR n * c.
Proof. induction n. simpl; lra. rewrite S_INR. simpl. rewrite IHn. lra. Qed.
Lemma sumn_le n f g : (forall i, (i < n)%nat -> f i <= g i) -> sumn n f <= sumn n g.
Proof. induction n; simpl; intros; [lra|]. apply Rplus_le_compat; auto. Qed.
Lemma sumn_nonneg n f : (forall i, (i < n)%nat -> 0 <= f i) -> 0 <= sumn n f.
Proof. intros. rewrite <- (sumn_0 n). apply sumn_le; auto. Qed.
Lemma sumn_pos n f k : (forall i, (i < n)%nat -> 0 <= f i) -> (k < n)%nat -> 0 < f k -> 0 < sumn n f.
Proof.
  induction n; simpl; intros H1 H2 H3; [lia|].
  destruct (Nat.eq_dec k n) as [->|].
  - assert (0 <= sumn n f) by (apply sumn_nonneg; auto). lra.
  - assert (0 < sumn n f) by (apply IHn; auto; lia). assert (0 <= f n) by auto. lra.
Qed.
Lemma sumn_allpos n f : (0 < n)%nat -> (forall i, (i < n)%nat -> 0 < f i) -> 0 < sumn n f.
Proof.
  intros Hn H. apply (sumn_pos n f 0); auto. intros i Hi; specialize (H i Hi); lra.
Qed.
Lemma sumn_zero_inv n f : (forall i, (i < n)%nat -> 0 <= f i) -> sumn n f = 0 ->
  forall i, (i < n)%nat -> f i = 0.
Proof.
  intros H1 H2 i Hi. destruct (Rle_lt_or_eq_dec 0 (f i) (H1 i Hi)) as [Hp|]; auto.
  pose proof (sumn_pos n f i H1 Hi Hp). lra.
Qed.
Lemma sumn_term n f k : (k < n)%nat -> (forall i, (i < n)%nat -> i <> k -> f i = 0) -> sumn n f = f k.
Proof.
  induction n; intros Hk H; [lia|]. simpl.
  destruct (Nat.eq_dec k n) as [->|].
  - rewrite sumn_zero. lra. intros; apply H; lia.
  - rewrite IHn by (try lia; intros; apply H; lia). rewrite (H n) by lia. lra.
Qed.
Lemma sumn_swap n m f :
  sumn n (fun i => sumn m (fun j => f i j)) = sumn m (fun j => sumn n (fun i => f i j)).
Proof.
  induction n; simpl. symmetry; apply sumn_0. rewrite IHn, sumn_plus. reflexivity.
Qed.
Lemma sumn_abs n f : Rabs (sumn n f) <= sumn n (fun i => Rabs (f i)).
Proof.
  induction n; simpl. rewrite Rabs_R0; lra.
  eapply Rle_trans. apply Rabs_triang. lra.
Qed.
Lemma sumn_S_first n f : sumn (S n) f = f 0%nat + sumn n (fun i => f (S i)).
Proof. induction n; simpl in *; [lra|]. rewrite IHn. lra. Qed.
Lemma sumn_app n m f : sumn (n + m) f = sumn n f + sumn m (fun i => f (n + i)%nat).
Proof.
  induction m; simpl. rewrite Nat.add_0_r; lra.
  rewrite Nat.add_succ_r; simpl. rewrite IHm. lra.
Qed.

Lemma avg_ext n f g : (forall i, (i < n)%nat -> f i = g i) -> avg n f = avg n g.
Proof. intros; unfold avg; rewrite (sumn_ext n f g); auto. Qed.

Lemma INR_pos n : (0 < n)%nat -> 0 < INR n.
Proof. intros; apply lt_0_INR; auto. Qed.
Lemma INR_ne n : (0 < n)%nat -> INR n <> 0.
Proof. intros; pose proof (INR_pos n H); lra. Qed.

Lemma avg_le n f g : (0 < n)%nat -> (forall i, (i < n)%nat -> f i <= g i) -> avg n f <= avg n g.
Proof.
  intros; unfold avg, Rdiv. apply Rmult_le_compat_r.
  left; apply Rinv_0_lt_compat, INR_pos; auto. apply sumn_le; auto.
Qed.
Lemma avg_const n c : (0 < n)%nat -> avg n (fun _ => c) = c.
Proof. intros; unfold avg. rewrite sumn_const. field. apply INR_ne; auto. Qed.
Lemma avg_bounds n f lo hi : (0 < n)%nat -> bounded_by n f lo hi -> lo <= avg n f <= hi.
Proof.
  intros Hn H. rewrite <- (avg_const n lo), <- (avg_const n hi) by auto.
  split; apply avg_le; auto; intros; apply H; auto.
Qed.
Lemma avg_plus n f g : avg n (fun i => f i + g i) = avg n f + avg n g.
Proof. unfold avg. rewrite sumn_plus. unfold Rdiv; lra. Qed.
Lemma avg_minus n f g : avg n (fun i => f i - g i) = avg n f - avg n g.
Proof. unfold avg. rewrite sumn_minus. unfold Rdiv; lra. Qed.
Lemma avg_scal n c f : avg n (fun i => c * f i) = c * avg n f.
Proof. unfold avg. rewrite sumn_scal. unfold Rdiv; lra. Qed.

(** ** tab *)
Lemma tab_length {A} n (f : nat -> A) : length (tab n f) = n.
Proof. unfold tab. rewrite map_length, seq_length; auto. Qed.
Lemma tab_S {A} n (f : nat -> A) : tab (S n) f = tab n f ++ [f n].
Proof. unfold tab. rewrite seq_S, map_app. reflexivity. Qed.
Lemma tab_S_first {A} n (f : nat -> A) : tab (S n) f = f 0%nat :: tab n (fun i => f (S i)).
Proof. unfold tab. simpl. f_equal. rewrite <- seq_shift, map_map. reflexivity. Qed.
Lemma tab_ext {A} n (f g : nat -> A) : (forall i, (i < n)%nat -> f i = g i) -> tab n f = tab n g.
Proof. intros H. unfold tab. apply map_ext_in. intros i Hi. apply in_seq in Hi. apply H; lia. Qed.
Lemma map_tab {A B} n (f : nat -> A) (g : A -> B) : map g (tab n f) = tab n (fun i => g (f i)).
Proof. unfold tab. apply map_map. Qed.
Lemma nth_tab {A} n (f : nat -> A) i d : (i < n)%nat -> nth i (tab n f) d = f i.
Proof.
  intros. unfold tab. rewrite (nth_indep _ d (f 0%nat)) by (rewrite map_length, seq_length; auto).
  rewrite map_nth, seq_nth by auto. reflexivity.
Qed.
Lemma nth_error_tab {A} n (f : nat -> A) i : (i < n)%nat -> nth_error (tab n f) i = Some (f i).
Proof.
  intros. rewrite (nth_error_nth' _ (f 0%nat)) by (rewrite tab_length; auto).
  rewrite nth_tab by auto. reflexivity.
Qed.
Lemma list_tab {A} (l : list A) d : l = tab (length l) (fun i => nth i l d).
Proof.
  induction l; simpl; auto. rewrite tab_S_first. f_equal. exact IHl.
Qed.
Lemma In_tab {A} n (f : nat -> A) x : In x (tab n f) <-> exists i, (i < n)%nat /\ f i = x.
Proof.
  unfold tab. rewrite in_map_iff. split.
  - intros (i & H & Hi). apply in_seq in Hi. exists i; split; auto; lia.
  - intros (i & Hi & H). exists i; split; auto. apply in_seq; lia.
Qed.
Lemma combine_tab {A B} n (f : nat -> A) (g : nat -> B) :
  combine (tab n f) (tab n g) = tab n (fun i => (f i, g i)).
Proof.
  revert f g; induction n; intros; auto. rewrite !tab_S_first. simpl. rewrite IHn. reflexivity.
Qed.
Lemma forallb_tab {A} n (f : nat -> A) p :
  forallb p (tab n f) = true <-> forall i, (i < n)%nat -> p (f i) = true.
Proof.
  rewrite forallb_forall. split; intros H.
  - intros i Hi. apply H. apply In_tab. eauto.
  - intros x Hx. apply In_tab in Hx as (i & Hi & <-). auto.
Qed.
Lemma existsb_tab_false {A} n (f : nat -> A) p :
  (forall i, (i < n)%nat -> p (f i) = false) -> existsb p (tab n f) = false.
Proof.
  intros H. destruct (existsb p (tab n f)) eqn:E; auto.
  apply existsb_exists in E as (x & Hx & Hp). apply In_tab in Hx as (i & Hi & <-).
  rewrite H in Hp by auto; discriminate.
Qed.
Lemma mapM_tab {A B} n (f : nat -> A) (h : A -> res B) (g : nat -> B) :
  (forall i, (i < n)%nat -> h (f i) = Ok (g i)) -> mapM h (tab n f) = Ok (tab n g).
Proof.
  intros H. unfold tab. rewrite mapM_map. apply mapM_Ok. intros i Hi. apply in_seq in Hi.
  apply H; lia.
Qed.
Lemma bcast2_tab {A B C} (f : A -> B -> C) n g h :
  bcast2 f (tab n g) (tab n h) = Ok (tab n (fun i => f (g i) (h i))).
Proof.
  unfold bcast2. rewrite !tab_length, Nat.eqb_refl, combine_tab, map_tab. reflexivity.
Qed.
Lemma bcast2_same {A B C} (f : A -> B -> C) x y :
  length x = length y ->
  bcast2 f x y = Ok (map (fun p => f (fst p) (snd p)) (combine x y)).
Proof. intros H. unfold bcast2. rewrite H, Nat.eqb_refl. reflexivity. Qed.

Lemma nsum_tabF n f : nsum (tabF n f) = Fin (sumn n f).
Proof.
  unfold tabF. revert f. induction n; intros; auto.
  rewrite tab_S_first, sumn_S_first. simpl. rewrite (IHn (fun i => f (S i))). reflexivity.
Qed.
Lemma nmean_tabF n f : (0 < n)%nat -> nmean (tabF n f) = Fin (avg n f).
Proof.
  intros. unfold nmean, nnat, avg. rewrite nsum_tabF. unfold tabF; rewrite tab_length.
  apply ndiv_Fin. apply INR_ne; auto.
Qed.
Lemma nsum_NaN l : In NaN l -> nsum l = NaN.
Proof.
  induction l; simpl; intros H; [easy|]. destruct H as [->|H].
  apply nadd_NaN_l. rewrite IHl by auto. apply nadd_NaN_r.
Qed.
Lemma nmean_NaN l : In NaN l -> nmean l = NaN.
Proof. intros. unfold nmean. rewrite nsum_NaN by auto. apply ndiv_NaN_l. Qed.

Lemma arange_tab n : arange n = tab n Z.of_nat.
Proof. reflexivity. Qed.

Lemma np_get_nat {A} (l : list A) (i : nat) : (i < length l)%nat ->
  exists x, nth_error l i = Some x /\ np_get l (Z.of_nat i) = Ok x.
Proof.
  intros H. destruct (nth_error l i) as [x|] eqn:E.
  - exists x; split; auto. unfold np_get.
    replace (Z.ltb (Z.of_nat i) 0) with false by (symmetry; apply Z.ltb_ge; lia).
    replace (Z.leb 0 (Z.of_nat i)) with true by (symmetry; apply Z.leb_le; lia).
    replace (Z.ltb (Z.of_nat i) (Z.of_nat (length l))) with true by (symmetry; apply Z.ltb_lt; lia).
    simpl. rewrite Nat2Z.id, E. reflexivity.
  - apply nth_error_None in E. lia.
Qed.
Lemma np_get_tab {A} n (f : nat -> A) i : (i < n)%nat -> np_get (tab n f) (Z.of_nat i) = Ok (f i).
Proof.
  intros H. destruct (np_get_nat (tab n f) i) as (x & E & ->). rewrite tab_length; auto.
  rewrite nth_error_tab in E by auto. congruence.
Qed.
Lemma np_get_nth {A} (l : list A) i d : (i < length l)%nat -> np_get l (Z.of_nat i) = Ok (nth i l d).
Proof.
  intros. destruct (np_get_nat l i H) as (x & E & ->). f_equal. symmetry.
  apply nth_error_nth; auto.
Qed.

Lemma fancy3_tab n k m f a p :
  (forall i, (i < n)%nat -> (a i < k)%nat) -> (forall i, (i < n)%nat -> (p i < m)%nat) ->
  fancy3 (tab3F n k m f) (arange n) (tabZ n a) (tabZ n p)
  = Ok (tabF n (fun i => f i (a i) (p i))).
Proof.
  intros Ha Hp. unfold fancy3, bcast2_idx, tabZ. rewrite arange_tab, bcast2_tab. simpl.
  rewrite bcast2_tab. simpl. apply mapM_tab. intros i Hi. simpl.
  unfold tab3F. rewrite np_get_tab by auto. simpl.
  unfold tab2F. rewrite np_get_tab by auto. simpl.
  unfold tabF. rewrite np_get_tab by auto. reflexivity.
Qed.

Lemma fancy3_row_tab n k m f p :
  (forall i, (i < n)%nat -> (p i < m)%nat) ->
  fancy3_row (tab3F n k m f) (arange n) (tabZ n p)
  = Ok (tab2F n k (fun i a => f i a (p i))).
Proof.
  intros Hp. unfold fancy3_row, bcast2_idx, tabZ. rewrite arange_tab, bcast2_tab. simpl.
  apply mapM_tab. intros i Hi. simpl.
  unfold tab3F. rewrite np_get_tab by auto. simpl.
  unfold tab2F, tabF. apply mapM_tab. intros a Ha. rewrite np_get_tab by auto. reflexivity.
Qed.

Lemma np_average1_tab k v w : sumn k w <> 0 ->
  np_average1 (tabF k v) (tabF k w) = Ok (Fin (sumn k (fun a => v a * w a) / sumn k w)).
Proof.
  intros H. unfold np_average1. rewrite nsum_tabF. simpl.
  apply Reqb_false in H as H'. rewrite H'. unfold tabF at 1 2. rewrite combine_tab, map_tab. simpl.
  change (tab k (fun i => Fin (v i * w i))) with (tabF k (fun i => v i * w i)).
  rewrite nsum_tabF. rewrite ndiv_Fin by auto. reflexivity.
Qed.

Lemma np_average_axis1_tab n k v w : (forall i, (i < n)%nat -> sumn k (w i) <> 0) ->
  np_average_axis1 (tab2F n k v) (tab2F n k w)
  = Ok (tabF n (fun i => sumn k (fun a => v i a * w i a) / sumn k (w i))).
Proof.
  intros H. unfold np_average_axis1, tab2F. rewrite !tab_length, Nat.eqb_refl. simpl.
  rewrite combine_tab.
  replace (forallb _ _) with true.
  2:{ symmetry. apply forallb_tab. intros i Hi. simpl. unfold tabF. rewrite !tab_length.
      apply Nat.eqb_refl. }
  apply mapM_tab. intros i Hi. simpl. apply np_average1_tab. auto.
Qed.

Lemma zminl_tab n a : (0 < n)%nat -> exists z, zminl (tabZ n a) = Ok z /\ (0 <= z)%Z.
Proof.
  intros Hn. destruct n; [lia|]. unfold tabZ. rewrite tab_S_first. simpl.
  eexists; split; eauto.
  generalize (a 0%nat) as z0. intros z0.
  assert (H0 : (0 <= Z.of_nat z0)%Z) by lia. revert H0. generalize (Z.of_nat z0) as z.
  assert (Hall : forall x, In x (tab n (fun i => Z.of_nat (a (S i)))) -> (0 <= x)%Z).
  { intros x Hx. apply In_tab in Hx as (i & _ & <-). lia. }
  revert Hall. generalize (tab n (fun i => Z.of_nat (a (S i)))) as l.
  induction l; simpl; intros Hall z Hz; auto. apply IHl; auto.
  specialize (Hall a0 (or_introl eq_refl)). lia.
Qed.
Lemma zmaxl_tab n a k : (0 < n)%nat -> (forall i, (i < n)%nat -> (a i < k)%nat) ->
  exists z, zmaxl (tabZ n a) = Ok z /\ (z < Z.of_nat k)%Z.
Proof.
  intros Hn Ha. destruct n; [lia|]. unfold tabZ. rewrite tab_S_first. simpl.
  eexists; split; eauto.
  assert (H0 : (Z.of_nat (a 0%nat) < Z.of_nat k)%Z) by (specialize (Ha 0%nat); lia).
  revert H0. generalize (Z.of_nat (a 0%nat)) as z.
  assert (Hall : forall x, In x (tab n (fun i => Z.of_nat (a (S i)))) -> (x < Z.of_nat k)%Z).
  { intros x Hx. apply In_tab in Hx as (i & Hi & <-). specialize (Ha (S i)). lia. }
  revert Hall. generalize (tab n (fun i => Z.of_nat (a (S i)))) as l.
  induction l; simpl; intros Hall z Hz; auto. apply IHl; auto.
  specialize (Hall a0 (or_introl eq_refl)). lia.
Qed.

Lemma dim1_tab3 n k m f : (0 < n)%nat -> dim1 (tab3F n k m f) = k.
Proof.
  intros. destruct n; [lia|]. unfold tab3F. rewrite tab_S_first. simpl. unfold tab2F.
  apply tab_length.
Qed.
Lemma dim2_tab3 n k m f : (0 < n)%nat -> (0 < k)%nat -> dim2 (tab3F n k m f) = m.
Proof.
  intros. destruct n; [lia|]. destruct k; [lia|]. unfold tab3F, tab2F, tabF, dim2.
  rewrite tab_S_first. rewrite tab_S_first. apply tab_length.
Qed.
Lemma sum_axis1_tab n k m f : (0 < n)%nat -> (0 < k)%nat ->
  sum_axis1 (tab3F n k m f) = tab2F n m (fun i p => sumn k (fun a => f i a p)).
Proof.
  intros Hn Hk. unfold sum_axis1. rewrite dim2_tab3 by auto. unfold tab3F at 1.
  rewrite map_tab. unfold tab2F at 2. apply tab_ext. intros i Hi. unfold tabF at 1. apply tab_ext.
  intros p Hp. unfold tab2F. rewrite map_tab. rewrite <- nsum_tabF. unfold tabF at 2.
  f_equal. apply tab_ext. intros a Ha. unfold nth_num, tabF. rewrite nth_tab; auto.
Qed.
