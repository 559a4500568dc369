(** * L_EmbedSel: embedding-dimension selection. *)

From Coq Require Import Reals List ZArith Lia Lra Bool Permutation.
From Verif Require Import Num NpList M_Utils M_Estimators M_Slate M_Multi M_Embed S_Base S_Prob S_Estimators
  S_Tuning S_Embed L_Num L_Base L_Estimators L_Prob L_Unbiased L_Tuning L_Embed.
Import ListNotations.
Open Scope R_scope.

(** ** Ordering by width *)

Lemma mapM_nth {A} (l : list A) d idx : (forall i, In i idx -> (i < length l)%nat) ->
  mapM (fun i => match nth_error l i with Some x => Ok x | None => Err IndexError end) idx
  = Ok (map (fun i => nth i l d) idx).
Proof.
  intros H. apply mapM_Ok. intros i Hi. rewrite (nth_error_nth' l d) by auto. reflexivity.
Qed.

Lemma perm_by_index {A} (l : list A) d idx : Permutation idx (seq 0 (length l)) ->
  Permutation (map (fun i => nth i l d) idx) l.
Proof.
  intros H. eapply Permutation_trans. apply Permutation_map. exact H.
  replace (map (fun i => nth i l d) (seq 0 (length l))) with l by (exact (list_tab l d)). apply Permutation_refl.
Qed.

Lemma by_width_spec {A} argsort (width : A -> num) (w : A -> R) (l : list A) d :
  (forall xs, is_argsort xs (argsort xs)) -> (forall x, In x l -> width x = Fin (w x)) ->
  exists l', by_width argsort width l = Ok l' /\ Permutation l' l /\
    (forall i j, (i < j < length l')%nat -> w (nth j l' d) <= w (nth i l' d)).
Proof.
  intros Hs Hw. destruct (Hs (map width l)) as (Hnd & Hlen & Hin & Hord).
  set (idx := argsort (map width l)) in *. rewrite map_length in *.
  exists (map (fun i => nth i l d) (rev idx)). split; [|split].
  - unfold by_width. fold idx. apply mapM_nth. intros i Hi. apply Hin. apply in_rev; auto.
  - apply perm_by_index. eapply Permutation_trans. apply Permutation_sym, Permutation_rev.
    pose proof (is_argsort_perm (map width l) idx (Hs _)) as P. rewrite map_length in P. exact P.
  - intros i j Hij. rewrite map_length, rev_length in Hij.
    rewrite (nth_indep _ d (nth 0 l d)) by (rewrite map_length, rev_length; lia).
    rewrite (nth_indep (map _ _) d (nth 0 l d)) by (rewrite map_length, rev_length; lia).
    rewrite !(map_nth (fun i => nth i l d)). rewrite !rev_nth by lia.
    set (a := (length idx - S j)%nat). set (b := (length idx - S i)%nat).
    assert (Hab : (a < b < length idx)%nat) by (unfold a, b; lia).
    specialize (Hord a b Hab).
    assert (Ha : (nth a idx 0 < length l)%nat) by (apply Hin, nth_In; lia).
    assert (Hb : (nth b idx 0 < length l)%nat) by (apply Hin, nth_In; lia).
    rewrite (nth_indep _ NaN (width d)) in Hord by (rewrite map_length; auto).
    rewrite (nth_indep (map width l) NaN (width d)) in Hord by (rewrite map_length; auto).
    rewrite !map_nth in Hord. rewrite !Hw in Hord by (apply nth_In; auto).
    destruct Hord as [C|Hle]; [discriminate|]. simpl in Hle. apply Rleb_true in Hle. exact Hle.
Qed.

(** ** Combinations *)

Lemma increasing_inv x l : increasing (x :: l) -> (forall y, In y l -> (x < y)%nat) /\ increasing l.
Proof. intros H. inversion H; auto. Qed.

Lemma combinations_spec b : forall a k s,
  In s (combinations (seq a b) k) <-> increasing s /\ length s = k /\ forall x, In x s -> (a <= x < a + b)%nat.
Proof.
  induction b; intros a k s.
  - destruct k; simpl.
    + split. intros [<-|[]]. split. constructor. split; auto. simpl; tauto.
      intros (_ & H & _). destruct s; simpl in H; auto. lia.
    + split. tauto. intros (_ & H & Hx). destruct s as [|x s]; simpl in H. lia. specialize (Hx x (or_introl eq_refl)). lia.
  - destruct k.
    + simpl. split. intros [<-|[]]. split. constructor. split; auto. simpl; tauto.
      intros (_ & H & _). destruct s; simpl in H; auto. lia.
    + change (combinations (seq a (S b)) (S k)) with
        (map (cons a) (combinations (seq (S a) b) k) ++ combinations (seq (S a) b) (S k)).
      rewrite in_app_iff, in_map_iff. split.
      * intros [(s' & <- & H)|H].
        -- apply IHb in H as (H1 & H2 & H3). split.
           ++ constructor; auto. intros y Hy. specialize (H3 y Hy). lia.
           ++ split. simpl; lia. intros x [<-|Hx]. lia. specialize (H3 x Hx). lia.
        -- apply IHb in H as (H1 & H2 & H3). split; auto. split; auto. intros x Hx. specialize (H3 x Hx). lia.
      * intros (H1 & H2 & H3). destruct s as [|x s]; simpl in H2. lia.
        apply increasing_inv in H1 as [H1 H1'].
        destruct (Nat.eq_dec x a) as [->|Hn].
        -- left. exists s. split; auto. apply IHb. split; auto. split. lia.
           intros y Hy. specialize (H1 y Hy). specialize (H3 y (or_intror Hy)). lia.
        -- right. apply IHb. split. constructor; auto. split. simpl; lia.
           intros y Hy. pose proof (H3 y Hy). pose proof (H3 x (or_introl eq_refl)). destruct Hy as [<-|Hy].
           lia. specialize (H1 y Hy). lia.
Qed.

Lemma NoDup_app_intro {A} (l1 l2 : list A) : NoDup l1 -> NoDup l2 -> (forall x, In x l1 -> ~ In x l2) -> NoDup (l1 ++ l2).
Proof.
  induction l1; intros H1 H2 H; simpl; auto. inversion H1; subst. constructor.
  - rewrite in_app_iff. intros [C|C]; auto. apply (H a); simpl; auto.
  - apply IHl1; auto. intros x Hx. apply H. simpl; auto.
Qed.

Lemma combinations_NoDup b : forall a k, NoDup (combinations (seq a b) k).
Proof.
  induction b; intros a k.
  - destruct k; simpl. constructor. simpl; tauto. constructor. constructor.
  - destruct k. simpl. constructor. simpl; tauto. constructor.
    change (combinations (seq a (S b)) (S k)) with
        (map (cons a) (combinations (seq (S a) b) k) ++ combinations (seq (S a) b) (S k)).
    apply NoDup_app_intro; auto.
    + apply FinFun.Injective_map_NoDup; auto. intros x y E. congruence.
    + intros s Hs C. apply in_map_iff in Hs as (s' & <- & _). apply combinations_spec in C as (_ & _ & C).
      specialize (C a (or_introl eq_refl)). lia.
Qed.

Lemma combinations_big b : forall a k, (b < k)%nat -> combinations (seq a b) k = [].
Proof.
  induction b; intros a k H. destruct k; [lia|reflexivity].
  destruct k; [lia|]. change (combinations (seq a (S b)) (S k)) with
        (map (cons a) (combinations (seq (S a) b) k) ++ combinations (seq (S a) b) (S k)).
  rewrite !IHb by lia. reflexivity.
Qed.

Lemma combinations_full b : forall a, combinations (seq a b) b = [seq a b].
Proof.
  induction b; intros a. reflexivity.
  change (combinations (seq a (S b)) (S b)) with
        (map (cons a) (combinations (seq (S a) b) b) ++ combinations (seq (S a) b) (S b)).
  rewrite IHb, combinations_big by lia. reflexivity.
Qed.

Lemma combinations_subset n k s : In s (combinations (seq 0 n) k) <-> subset n k s.
Proof.
  rewrite combinations_spec. unfold subset. split; intros (H1 & H2 & H3); (split; [auto|split; [auto|]]); intros y Hy; specialize (H3 y Hy); lia.
Qed.

(** ** Invariant of the accepted list and the snapshot *)

Definition tj_inv (acc : list (R * R)) (tj : option (list (num * num))) : Prop :=
  (tj = None /\ length acc = 1%nat) \/
  (tj = Some (map toN (removelast acc)) /\ removelast acc <> []).

Lemma select_inv cands acc tj : acc <> [] -> all_adm acc (length acc) -> tj_inv acc tj ->
  (forall rest, exists v, select_loop (map toN cands) (map toN acc) tj = inl (Fin v) /\
      stops_at_rejection (acc ++ cands ++ rest) v) \/
  (exists tj', select_loop (map toN cands) (map toN acc) tj = inr (map toN (acc ++ cands), tj') /\
      all_adm (acc ++ cands) (length (acc ++ cands)) /\ tj_inv (acc ++ cands) tj').
Proof.
  intros Hne Hadm Hinv. pose proof (select_spec cands acc tj Hne Hadm) as H.
  destruct (select_loop (map toN cands) (map toN acc) tj) as [v|[acc' tj']].
  - left. intros rest. specialize (H ltac:(destruct Hinv as [[-> _]|[-> Hr]]; eauto)).
    destruct H as (m & H1 & H2 & H3 & H4 & ->). eexists. split. reflexivity.
    exists m. rewrite app_assoc. split. rewrite app_length. lia. split; [|split].
    + intros i Hi. apply admissible_app. lia. auto.
    + intros C. apply H4. apply admissible_app in C; auto.
    + rewrite (app_nth1 (acc ++ cands)) by lia. reflexivity.
  - right. specialize (H ltac:(destruct Hinv as [[-> _]|[-> Hr]]; eauto)).
    destruct H as (H1 & -> & H2). exists tj'. split; auto. split; auto.
    destruct H2 as [[-> ->]|[-> H2]].
    + rewrite app_nil_r. auto.
    + right. auto.
Qed.

Lemma nth_removelast {A} (l : list A) i d : (i < length l - 1)%nat -> nth i (removelast l) d = nth i l d.
Proof.
  revert i. induction l as [|a [|b l] IH]; intros i Hi; simpl in Hi; try lia.
  destruct i; auto. change (nth i (removelast (b :: l)) d = nth i (b :: l) d). apply IH. simpl. lia.
Qed.

Lemma removelast_length {A} (l : list A) : length (removelast l) = (length l - 1)%nat.
Proof. induction l as [|a [|b l] IH]; auto. change (S (length (removelast (b :: l))) = (length (a :: b :: l) - 1)%nat). rewrite IH. simpl. lia. Qed.

Lemma final_inv acc tj : all_adm acc (length acc) -> tj_inv acc tj ->
  (length acc = 1%nat /\ final_value tj = Err NameError) \/
  exists v, final_value tj = Ok (Fin v) /\ last_but_one acc v.
Proof.
  intros Hadm [[-> Hl]|[-> Hr]]; [left; auto|right].
  assert (Hl : (2 <= length acc)%nat).
  { pose proof (removelast_length acc). destruct (removelast acc) eqn:E; [congruence|]. simpl in H. lia. }
  simpl. rewrite (last_map toN (removelast acc) (0, 0)) by auto.
  eexists. split. reflexivity. exists (length acc - 2)%nat. split. lia. split.
  - intros i Hi. apply Hadm. lia.
  - f_equal. rewrite last_nth, removelast_length. replace (length acc - 1 - 1)%nat with (length acc - 2)%nat by lia.
    apply nth_removelast. lia.
Qed.

(** ** Exact selection *)

(** Some ordering by width exists. *)
Fixpoint winsert (est : list nat -> R * R) (x : list nat) (l : list (list nat)) : list (list nat) :=
  match l with
  | [] => [x]
  | y :: r => if Rle_dec (snd (est y)) (snd (est x)) then x :: l else y :: winsert est x r
  end.
Fixpoint wsort est (l : list (list nat)) := match l with [] => [] | x :: r => winsert est x (wsort est r) end.
Lemma winsert_perm est x l : Permutation (winsert est x l) (x :: l).
Proof.
  induction l; simpl; auto. destruct (Rle_dec _ _); auto. eapply Permutation_trans. apply perm_skip; eauto. apply perm_swap.
Qed.
Lemma wsort_perm est l : Permutation (wsort est l) l.
Proof. induction l; simpl; auto. eapply Permutation_trans. apply winsert_perm. auto. Qed.
Inductive wsorted (est : list nat -> R * R) : list (list nat) -> Prop :=
| ws_nil : wsorted est []
| ws_cons : forall x l, (forall y, In y l -> snd (est y) <= snd (est x)) -> wsorted est l -> wsorted est (x :: l).
Lemma winsert_sorted est x l : wsorted est l -> wsorted est (winsert est x l).
Proof.
  induction l as [|y l IH]; intros H; simpl. repeat constructor; simpl; tauto.
  inversion H; subst. destruct (Rle_dec _ _) as [Hr|Hr].
  - constructor; auto. intros z [<-|Hz]; auto. specialize (H2 z Hz). lra.
  - constructor; auto. intros z Hz. apply (Permutation_in _ (winsert_perm est x l)) in Hz as [<-|Hz]; auto. lra.
Qed.
Lemma wsorted_first est l : wsorted est l -> widest_first est l.
Proof.
  induction 1 as [|x l Hx Hl IH]; intros i j Hij; simpl in Hij. lia.
  destruct j; [lia|]. destruct i; simpl. apply Hx, nth_In; lia. apply IH. lia.
Qed.
Lemma classic_sort est l : exists l', Permutation l' l /\ widest_first est l'.
Proof.
  exists (wsort est l). split. apply wsort_perm. apply wsorted_first. induction l; simpl. constructor. apply winsert_sorted; auto.
Qed.

Lemma by_width_est argsort (est : list nat -> R * R) sets : (forall xs, is_argsort xs (argsort xs)) ->
  exists sets', by_width argsort snd (map (fun s => toN (est s)) sets) = Ok (map (fun s => toN (est s)) sets') /\
    Permutation sets' sets /\ widest_first est sets'.
Proof.
  intros Hs.
  destruct (by_width_spec argsort (fun s => snd (toN (est s))) (fun s => snd (est s)) sets [] Hs) as (l' & E & P & O).
  { reflexivity. }
  exists l'. split; [|split; auto].
  unfold by_width in *. rewrite map_map.
  assert (Hidx : forall i, In i (rev (argsort (map (fun x => snd (toN (est x))) sets))) -> (i < length sets)%nat).
  { intros i Hi. apply in_rev in Hi. destruct (Hs (map (fun x => snd (toN (est x))) sets)) as (_ & _ & Hin & _).
    specialize (Hin i Hi). rewrite map_length in Hin. auto. }
  rewrite (mapM_nth _ []) in E by auto. injection E as <-.
  rewrite (mapM_nth _ (toN (est []))) by (rewrite map_length; auto). f_equal. rewrite map_map.
  apply map_ext. intros i. apply (map_nth (fun s => toN (est s))).
Qed.

Lemma mapM_est (est : list nat -> R * R) estm sets : (forall s, In s sets -> estm s = Ok (toN (est s))) ->
  mapM estm sets = Ok (map (fun s => toN (est s)) sets).
Proof. intros H. apply mapM_Ok. auto. Qed.

Lemma exact_visits_exist est n m : (0 < m)%nat -> forall k, exists seqs, exact_visits est n m k seqs.
Proof.
  intros Hm k. induction k as [k IH] using lt_wf_ind.
  destruct (Nat.lt_ge_cases k m) as [Hl|Hl]. exists []. constructor; auto.
  destruct (IH (k - 1)%nat ltac:(lia)) as [rest Hr].
  destruct (classic_sort est (combinations (seq 0 n) k)) as (lv & P & O).
  exists (lv ++ rest). constructor; auto.
  - eapply Permutation_NoDup. apply Permutation_sym; eauto. apply combinations_NoDup.
  - intros s. rewrite <- combinations_subset. split; apply Permutation_in; auto. apply Permutation_sym; auto.
Qed.

Lemma exact_loop_spec argsort est estm n m :
  (forall xs, is_argsort xs (argsort xs)) -> (0 < m)%nat ->
  (forall s k, (m <= k <= n)%nat -> subset n k s -> estm s = Ok (toN (est s))) ->
  forall k acc tj, (k <= n)%nat -> acc <> [] -> all_adm acc (length acc) -> tj_inv acc tj ->
  exists seqs, exact_visits est n m k seqs /\
   ((exists v, exact_loop argsort estm (seq 0 n) (rev (seq m (S k - m))) (map toN acc) tj = Ok (Fin v) /\
       (stops_at_rejection (acc ++ map est seqs) v \/ last_but_one (acc ++ map est seqs) v)) \/
    (length (acc ++ map est seqs) = 1%nat /\
     exact_loop argsort estm (seq 0 n) (rev (seq m (S k - m))) (map toN acc) tj = Err NameError)).
Proof.
  intros Hs Hm He k. induction k as [k IH] using lt_wf_ind. intros acc tj Hk Hne Hadm Hinv.
  destruct (Nat.lt_ge_cases k m) as [Hl|Hl].
  - replace (S k - m)%nat with 0%nat by lia. exists []. split. constructor; auto. simpl.
    rewrite app_nil_r. destruct (final_inv acc tj Hadm Hinv) as [[H1 H2]|(v & H1 & H2)]; eauto.
  - replace (S k - m)%nat with (S (k - m)) by lia. rewrite seq_S, rev_app_distr. simpl rev.
    replace (m + (k - m))%nat with k by lia. simpl app. cbn [exact_loop].
    rewrite (mapM_est est) by (intros s Hin; apply (He s k); [lia|apply combinations_subset; auto]).
    cbn [bind].
    destruct (by_width_est argsort est (combinations (seq 0 n) k) Hs) as (lv & E & P & O).
    assert (Ecase : (match map toN acc with
                     | [] => match map (fun s => toN (est s)) (combinations (seq 0 n) k) with
                             | [] => (map toN acc, map (fun s => toN (est s)) (combinations (seq 0 n) k))
                             | v :: vs => ([v], vs) end
                     | _ :: _ => (map toN acc, map (fun s => toN (est s)) (combinations (seq 0 n) k)) end)
              = (map toN acc, map (fun s => toN (est s)) (combinations (seq 0 n) k))).
    { destruct acc; [congruence|reflexivity]. }
    rewrite Ecase. rewrite E. cbn [bind]. rewrite <- (map_map est toN).
    assert (Hlv1 : NoDup lv) by (eapply Permutation_NoDup; [apply Permutation_sym; eauto|apply combinations_NoDup]).
    assert (Hlv2 : forall s, In s lv <-> subset n k s).
    { intros s. rewrite <- combinations_subset. split; apply Permutation_in; auto. apply Permutation_sym; auto. }
    destruct (select_inv (map est lv) acc tj Hne Hadm Hinv) as [H|(tj' & -> & H1 & H2)].
    + destruct (exact_visits_exist est n m Hm (k - 1)) as (rest & Hr).
      exists (lv ++ rest). split. constructor; auto.
      rewrite (map_app est). destruct (H (map est rest)) as (v & -> & Hv). left. exists v. auto.
    + destruct (IH (k - 1)%nat ltac:(lia) (acc ++ map est lv) tj' ltac:(lia)) as (rest & Hr & Hv); auto.
      { destruct acc; simpl; congruence. }
      replace (S (k - 1) - m)%nat with (k - m)%nat in Hv by lia.
      exists (lv ++ rest). split. constructor; auto. rewrite (map_app est), app_assoc. exact Hv.
Qed.

(** ** Greedy selection *)

Lemma filter_In_drop d feat x : In x (drop d feat) <-> In x feat /\ x <> d.
Proof. unfold drop. rewrite filter_In, negb_true_iff, Nat.eqb_neq. tauto. Qed.

Lemma drop_NoDup d feat : NoDup feat -> NoDup (drop d feat).
Proof. apply NoDup_filter. Qed.

Lemma filter_all {A} (f : A -> bool) l : (forall x, In x l -> f x = true) -> filter f l = l.
Proof. induction l; simpl; intros H; auto. rewrite H by auto. f_equal. auto. Qed.

Lemma drop_length d feat : NoDup feat -> In d feat -> S (length (drop d feat)) = length feat.
Proof.
  induction feat as [|x feat IH]; simpl; intros Hn Hd. tauto. inversion Hn; subst.
  destruct (Nat.eqb x d) eqn:E; simpl.
  - apply Nat.eqb_eq in E. subst. f_equal. f_equal. apply filter_all.
    intros y Hy. apply negb_true_iff, Nat.eqb_neq. intros ->. auto.
  - f_equal. apply IH; auto. apply Nat.eqb_neq in E. destruct Hd; congruence.
Qed.

Lemma increasing_filter f l : increasing l -> increasing (filter f l).
Proof.
  induction 1; simpl. constructor. destruct (f x); auto. constructor; auto.
  intros y Hy. apply filter_In in Hy as [Hy _]. auto.
Qed.

Lemma increasing_NoDup l : increasing l -> NoDup l.
Proof. induction 1; constructor; auto. intros C. specialize (H x C). lia. Qed.

Lemma drop_subset n k d s : subset n (S k) s -> In d s -> subset n k (drop d s).
Proof.
  intros (H1 & H2 & H3) Hd. split. apply increasing_filter; auto. split.
  - pose proof (drop_length d s (increasing_NoDup _ H1) Hd). lia.
  - intros x Hx. apply filter_In_drop in Hx as [Hx _]. auto.
Qed.

Lemma last_In {A} (l : list A) d : l <> [] -> In (last l d) l.
Proof. induction l as [|a [|b l] IH]; intros H. congruence. simpl; auto. right. apply IH. congruence. Qed.

Lemma greedy_visits_exist est n m : (0 < m)%nat -> forall k feat, subset n k feat ->
  exists seqs, greedy_visits est m feat seqs.
Proof.
  intros Hm k. induction k as [k IH] using lt_wf_ind. intros feat Hf.
  pose proof Hf as (F1 & F2 & F3).
  destruct (Nat.le_gt_cases (length feat) m) as [Hl|Hl]. exists []. constructor; auto.
  destruct (classic_sort (fun s => est (drop (nth 0 s 0%nat) feat)) (map (fun d => [d]) feat)) as (sets & P & O).
  assert (Hds : forall s, In s sets -> exists d, s = [d] /\ In d feat).
  { intros s Hin. apply (Permutation_in _ P) in Hin. apply in_map_iff in Hin as (d & <- & Hd). eauto. }
  set (ds := map (fun s => nth 0 s 0%nat) sets).
  assert (Pd : Permutation ds feat).
  { unfold ds. eapply Permutation_trans. apply Permutation_map. exact P. rewrite map_map. simpl. rewrite map_id. auto. }
  set (level := map (fun d => drop d feat) ds).
  assert (Hne : level <> []).
  { unfold level. intros C. apply map_eq_nil in C. rewrite C in Pd. apply Permutation_nil in Pd. subst feat. simpl in *. lia. }
  assert (HLin : In (last level []) level) by (apply last_In; auto).
  unfold level in HLin. apply in_map_iff in HLin as (d & Ed & Hd). apply (Permutation_in _ Pd) in Hd.
  destruct k; [lia|].
  assert (Hsub : subset n k (last level [])) by (unfold level; rewrite <- Ed; apply drop_subset; auto).
  destruct (IH k ltac:(lia) _ Hsub) as (rest & Hr).
  exists (level ++ rest). constructor; auto.
  - exists ds. split; auto. split. eapply Permutation_NoDup. apply Permutation_sym; eauto. apply increasing_NoDup; auto.
    intros x. split; apply Permutation_in; auto. apply Permutation_sym; auto.
  - intros i j Hij. unfold level, ds in *. rewrite !map_length in Hij.
    rewrite !(nth_indep _ [] (drop (nth 0 [] 0%nat) feat)) by (rewrite !map_length; lia).
    rewrite !(map_nth (fun d => drop d feat)).
    rewrite !(map_nth (fun s : list nat => nth 0 s 0%nat)). apply O. lia.
Qed.

Lemma greedy_loop_spec argsort est estm n m :
  (forall xs, is_argsort xs (argsort xs)) -> (0 < m)%nat ->
  (forall s k, (m <= k <= n)%nat -> subset n k s -> estm s = Ok (toN (est s))) ->
  forall fuel k feat acc tj, subset n k feat -> (k <= n)%nat -> (k <= fuel)%nat ->
  acc <> [] -> all_adm acc (length acc) -> tj_inv acc tj ->
  exists seqs, greedy_visits est m feat seqs /\
   ((exists v, greedy_loop argsort estm fuel m feat (map toN acc) tj = Ok (Fin v) /\
       (stops_at_rejection (acc ++ map est seqs) v \/ last_but_one (acc ++ map est seqs) v)) \/
    (length (acc ++ map est seqs) = 1%nat /\
     greedy_loop argsort estm fuel m feat (map toN acc) tj = Err NameError)).
Proof.
  intros Hs Hm He fuel. induction fuel as [|fuel IH]; intros k feat acc tj Hf Hkn Hk Hne Hadm Hinv;
    pose proof Hf as (F1 & F2 & F3).
  - assert (length feat = 0)%nat by lia. exists []. split. constructor; lia.
    simpl. replace (Nat.ltb m (length feat)) with false by (symmetry; apply Nat.ltb_ge; lia).
    rewrite app_nil_r. destruct (final_inv acc tj Hadm Hinv) as [[H1 H2]|(v & H1 & H2)]; eauto.
  - destruct (Nat.le_gt_cases (length feat) m) as [Hl|Hl].
    + exists []. split. constructor; auto.
      simpl. replace (Nat.ltb m (length feat)) with false by (symmetry; apply Nat.ltb_ge; lia).
      rewrite app_nil_r. destruct (final_inv acc tj Hadm Hinv) as [[H1 H2]|(v & H1 & H2)]; eauto.
    + cbn [greedy_loop]. replace (Nat.ltb m (length feat)) with true by (symmetry; apply Nat.ltb_lt; lia).
      destruct k as [|k]; [lia|].
      rewrite (mapM_Ok _ (fun d => (d, toN (est (drop d feat))))).
      2:{ intros d Hd. fold (drop d feat). rewrite (He (drop d feat) k); [reflexivity|lia|]. apply drop_subset; auto. }
      cbn [bind].
      set (pairs := map (fun d => (d, toN (est (drop d feat)))) feat).
      destruct (by_width_spec argsort (fun p : nat * (num * num) => snd (snd p)) (fun p => snd (est (drop (fst p) feat))) pairs
                  (0%nat, toN (est (drop 0%nat feat))) Hs) as (sorted & E & P & O).
      { intros x Hx. unfold pairs in Hx. apply in_map_iff in Hx as (d & <- & _). reflexivity. }
      rewrite E. cbn [bind].
      set (ds := map fst sorted).
      assert (Pd : Permutation ds feat).
      { unfold ds. eapply Permutation_trans. apply Permutation_map. exact P. unfold pairs. rewrite map_map. simpl.
        rewrite map_id. auto. }
      assert (Hsnd : forall p, In p sorted -> snd p = toN (est (drop (fst p) feat))).
      { intros p Hp. apply (Permutation_in _ P) in Hp. unfold pairs in Hp. apply in_map_iff in Hp as (d & <- & _). reflexivity. }
      set (level := map (fun d => drop d feat) ds).
      assert (Hvals : map snd sorted = map toN (map est level)).
      { unfold level, ds. rewrite !map_map. apply map_ext_in. intros p Hp. auto. }
      rewrite Hvals.
      assert (Hsne : sorted <> []).
      { intros C. unfold ds in Pd. rewrite C in Pd. simpl in Pd. apply Permutation_nil in Pd. subst feat. simpl in *. lia. }
      assert (Hlast : drop (fst (last sorted (hd (0%nat, toN (0,0)) sorted))) feat = last level []).
      { unfold level, ds. rewrite map_map.
        symmetry. apply (last_map (fun p => drop (fst p) feat) sorted (hd (0%nat, toN (0,0)) sorted) []). auto. }
      assert (Hwf : widest_first est level).
      { intros i j Hij. unfold level, ds in *. rewrite !map_length in Hij. rewrite map_map.
        rewrite !(nth_indep _ [] (drop (fst (0%nat, toN (est (drop 0%nat feat)))) feat)) by (rewrite !map_length; lia).
        rewrite !(map_nth (fun p : nat * (num * num) => drop (fst p) feat)). apply O. lia. }
      assert (Hlv : exists ds, level = map (fun d => drop d feat) ds /\ NoDup ds /\ forall d, In d ds <-> In d feat).
      { exists ds. split; auto. split. eapply Permutation_NoDup. apply Permutation_sym; eauto. apply increasing_NoDup; auto.
        intros x. split; apply Permutation_in; auto. apply Permutation_sym; auto. }
      assert (Hd : In (fst (last sorted (hd (0%nat, toN (0,0)) sorted))) feat).
      { apply (Permutation_in _ Pd). unfold ds. apply in_map. apply last_In. auto. }
      assert (Hsub : subset n k (last level [])) by (rewrite <- Hlast; apply drop_subset; auto).
      destruct (select_inv (map est level) acc tj Hne Hadm Hinv) as [H|(tj' & -> & H1 & H2)].
      * destruct (greedy_visits_exist est n m Hm k (last level []) Hsub) as (rest & Hr).
        exists (level ++ rest). split. constructor; auto.
        rewrite (map_app est). destruct (H (map est rest)) as (v & -> & Hv). left. exists v. auto.
      * destruct (IH k (last level []) (acc ++ map est level) tj') as (rest & Hr & Hv); auto; try lia.
        { destruct acc; simpl; congruence. }
        exists (level ++ rest). split. constructor; auto. rewrite (map_app est), app_assoc.
        destruct sorted as [|p0 sorted0]; [congruence|]. simpl hd in Hlast. fold (drop (fst (last (p0 :: sorted0) p0)) feat).
        rewrite Hlast. exact Hv.
Qed.

(** ** The estimate on a subset of dimensions *)

Lemma subset_nth n k s d : subset n k s -> (d < k)%nat -> (nth d s 0 < n)%nat.
Proof. intros (_ & H2 & H3) Hd. apply H3. apply nth_In. lia. Qed.

Lemma columns_tab {A} n D (f : nat -> nat -> A) s : (forall x, In x s -> (x < D)%nat) ->
  columns (tab n (fun i => tab D (f i))) s = Ok (tab n (fun i => tab (length s) (fun d => f i (nth d s 0%nat)))).
Proof.
  intros H. unfold columns. apply mapM_tab. intros i Hi.
  rewrite (list_tab s 0%nat) at 1. apply mapM_tab. intros d Hd. apply np_get_tab. apply H. apply nth_In; auto.
Qed.

Lemma restrict_accepted l k s : e_accepted l -> (0 < k)%nat -> subset (el_D l) k s -> e_accepted (restrict l s).
Proof.
  intros H Hk Hs. destruct Hs as (S1 & S2 & S3). constructor; simpl.
  - exact (ea_b l H). - exact (ea_e l H). - lia.
  - intros i d Hi Hd. apply (ea_emb l H); auto. apply S3. apply nth_In; auto.
  - intros i d Hi Hd. apply (ea_supp l H); auto. apply S3. apply nth_In; auto.
Qed.

Lemma ec_dev_ok l T na fit k s : e_accepted l -> (2 <= el_n l)%nat -> (0 < k)%nat -> subset (el_D l) k s ->
  ec_dev (Fin T) (mkECall (e_rewards l) (e_actions l) (e_embeds l) (e_pib l) (e_pie l)
     (tabZ (el_n l) (el_pos l)) (Some (e_pea l)) na fit) s = Ok (toN (dim_estimate l T s)).
Proof.
  intros H Hn Hk Hs. pose proof (restrict_accepted l k s H Hk Hs) as Hr. pose proof Hs as (S1 & S2 & S3).
  unfold ec_dev. cbn [ec_embed ec_pea ec_reward].
  assert (E1 : columns (e_embeds l) s = Ok (e_embeds (restrict l s))).
  { unfold e_embeds, tabZ. rewrite columns_tab by auto. reflexivity. }
  assert (E2 : planes (e_pea l) s = Ok (e_pea (restrict l s))).
  { unfold planes, e_pea, tab3F, tab2F, tabF. apply mapM_tab. intros a Ha. rewrite columns_tab by auto. reflexivity. }
  rewrite E1. cbn [bind]. rewrite E2. cbn [bind].
  pose proof (ec_weights_ok (restrict l s) na fit Hr) as W. unfold ec_weights in *.
  cbn [ec_reward ec_pib ec_pie ec_pos] in *. change (e_rewards (restrict l s)) with (e_rewards l) in W.
  change (e_pib (restrict l s)) with (e_pib l) in W. change (e_pie (restrict l s)) with (e_pie l) in W.
  change (el_n (restrict l s)) with (el_n l) in W. change (el_pos (restrict l s)) with (el_pos l) in W.
  rewrite W. cbn [bind]. unfold e_rewards. rewrite (bcast2_tabF nmul Rmult) by reflexivity. cbn [bind].
  unfold tabF at 3. rewrite tab_length.
  rewrite (tabF_ext (el_n l) _ (fun i => e_weight (restrict l s) i * el_r l i)) by (intros; ring).
  rewrite nmean_tabF, nvar_tabF by lia.
  pose proof (INR_pos _ (Nat.lt_le_trans 0 2 (el_n l) ltac:(lia) Hn)) as Hp.
  assert (Hn1 : 1 < INR (el_n l)) by (apply (lt_INR 1); lia).
  unfold toN, dim_estimate, spec_mipw. cbn [fst snd]. f_equal. f_equal.
  assert (E3 : nsub (nnat (el_n l)) (Fin 1) = Fin (INR (el_n l) - 1)).
  { unfold nsub, nnat. simpl. f_equal; ring. }
  rewrite E3, ndiv_Fin by lra.
  rewrite nsqrt_Fin by (apply Rmult_le_pos; [apply variance_nonneg|left; apply Rinv_0_lt_compat; lra]).
  reflexivity.
Qed.
