(** * L_Slate: lemmas about the slate model. *)

From Coq Require Import Reals List ZArith Bool Lia Lra Permutation Sorting.
From Verif Require Import Num NpList M_Utils M_Slate S_Base S_Prob S_Slate L_Num L_Base L_Prob L_Unbiased L_Utils.
Import ListNotations.
Open Scope R_scope.

(** ** np.unique *)

Lemma zinsert_u_In x l y : In y (zinsert_u x l) <-> y = x \/ In y l.
Proof.
  induction l as [|z l IH]; simpl; [intuition|].
  destruct (Z.ltb_spec x z); simpl; [intuition|].
  destruct (Z.eqb_spec x z); simpl; [subst; intuition|]. rewrite IH. intuition.
Qed.
Lemma np_unique_In l y : In y (np_unique l) <-> In y l.
Proof. induction l; simpl; [tauto|]. rewrite zinsert_u_In, IHl. intuition. Qed.
Lemma zinsert_u_sorted x l : StronglySorted Z.lt l -> StronglySorted Z.lt (zinsert_u x l).
Proof.
  induction l as [|z l IH]; simpl; intros H.
  - constructor; constructor.
  - inversion H as [|? ? H1 H2]; subst. destruct (Z.ltb_spec x z).
    + constructor; auto. constructor; auto. eapply Forall_impl; [|exact H2]. simpl; intros; lia.
    + destruct (Z.eqb_spec x z); auto. constructor; auto.
      apply Forall_forall. intros y Hy. apply zinsert_u_In in Hy as [->|Hy]; [lia|].
      rewrite Forall_forall in H2. auto.
Qed.
Lemma np_unique_sorted l : StronglySorted Z.lt (np_unique l).
Proof. induction l; simpl; [constructor|]. apply zinsert_u_sorted; auto. Qed.
Lemma np_unique_NoDup l : NoDup (np_unique l).
Proof.
  generalize (np_unique_sorted l). generalize (np_unique l) as u.
  induction u; intros H; constructor; inversion H; subst; auto.
  rewrite Forall_forall in H3. intros Hin. specialize (H3 _ Hin). lia.
Qed.

Lemma slates_unique l ids : slates l ids -> Permutation (np_unique (s_ids l)) (map Z.of_nat ids).
Proof.
  intros [Hnd Hin]. apply NoDup_Permutation.
  - apply np_unique_NoDup.
  - apply FinFun.Injective_map_NoDup; auto. intros x y; lia.
  - intros z. rewrite np_unique_In. unfold s_ids, tabZ. rewrite In_tab, in_map_iff. split.
    + intros (i & Hi & <-). exists (sl_id l i). split; auto. apply Hin; eauto.
    + intros (s & <- & Hs). apply Hin in Hs as (i & Hi & <-). eauto.
Qed.
Lemma slates_count l ids : slates l ids -> length (np_unique (s_ids l)) = length ids.
Proof. intros H. rewrite (Permutation_length (slates_unique l ids H)), map_length. reflexivity. Qed.

Lemma slates_pos l ids : slates l ids -> (0 < sl_n l)%nat -> (0 < length ids)%nat.
Proof.
  intros [_ H] Hn. assert (In (sl_id l 0) ids) by (apply H; eauto). destruct ids; simpl in *; [tauto|lia].
Qed.

Lemma sum_over_plus {A} (l : list A) f g : sum_over l (fun x => f x + g x) = sum_over l f + sum_over l g.
Proof. induction l; simpl; [lra|]. unfold sum_over in *. rewrite IHl. lra. Qed.
Lemma sum_over_ext {A} (l : list A) f g : (forall x, In x l -> f x = g x) -> sum_over l f = sum_over l g.
Proof. induction l; simpl; intros; auto. unfold sum_over in *. rewrite IHl, H; auto. Qed.
Lemma sum_over_zero {A} (l : list A) : sum_over l (fun _ => 0) = 0.
Proof. induction l; simpl; auto. unfold sum_over in *. rewrite IHl. lra. Qed.
Lemma sum_over_perm {A} (l l' : list A) f : Permutation l l' -> sum_over l f = sum_over l' f.
Proof. unfold sum_over; induction 1; simpl; lra. Qed.
Lemma sum_over_one (ids : list nat) (k : nat) (v : R) : NoDup ids -> In k ids ->
  sum_over ids (fun s => if Nat.eq_dec k s then v else 0) = v.
Proof.
  induction ids as [|a ids IH]; simpl; intros Hnd Hin; [tauto|]. inversion Hnd; subst.
  unfold sum_over in *; simpl. destruct (Nat.eq_dec k a) as [->|Hne].
  - assert (Hz : fold_right (fun x acc => (if Nat.eq_dec a x then v else 0) + acc) 0 ids = 0).
    { clear - H1. induction ids; simpl; auto. destruct (Nat.eq_dec a a0) as [->|]; simpl in *; [tauto|].
      rewrite IHids by tauto. lra. }
    rewrite Hz. lra.
  - rewrite IH; auto; [lra|]. destruct Hin; [congruence|auto].
Qed.

(** The per-slate totals add up to the total over rows. *)
Lemma sum_over_slates l ids f : slates l ids ->
  sum_over ids (slate_total l f) = sumn (sl_n l) f.
Proof.
  intros [Hnd Hin]. unfold slate_total.
  assert (H : forall n, (n <= sl_n l)%nat ->
     sum_over ids (fun s => sumn n (fun i => if Nat.eq_dec (sl_id l i) s then f i else 0)) = sumn n f).
  { induction n; intros Hn; simpl.
    - apply sum_over_zero.
    - rewrite sum_over_plus. rewrite IHn by lia. f_equal. apply sum_over_one; auto.
      apply Hin. exists n. split; auto; lia. }
  apply H; lia.
Qed.

Lemma slate_mean_rows l ids f : slates l ids -> slate_mean l ids f = sumn (sl_n l) f / INR (length ids).
Proof. intros. unfold slate_mean. rewrite sum_over_slates; auto. Qed.

(** ** The checks *)

Lemma zminl_spec l : match zminl l with
  | Ok m => l <> [] /\ In m l /\ forall x, In x l -> (m <= x)%Z
  | Err e => l = [] /\ e = ValueError end.
Proof.
  destruct l as [|x l]; simpl; [auto|]. split; [discriminate|].
  assert (H : forall l x, (fold_left Z.min l x = x \/ In (fold_left Z.min l x) l)
            /\ (fold_left Z.min l x <= x)%Z /\ forall y, In y l -> (fold_left Z.min l x <= y)%Z).
  { clear. induction l; simpl; intros x; [intuition; lia|].
    destruct (IHl (Z.min x a)) as (H1 & H2 & H3). split; [|split].
    - destruct H1 as [H1|H1]; auto. rewrite H1. destruct (Z.min_spec x a) as [[_ ->]|[_ ->]]; auto.
    - lia.
    - intros y [<-|Hy]; auto. lia. }
  destruct (H l x) as (H1 & H2 & H3). split; [destruct H1; auto|]. intros y [<-|Hy]; auto.
Qed.
Lemma zmaxl_spec l : match zmaxl l with
  | Ok m => l <> [] /\ In m l /\ forall x, In x l -> (x <= m)%Z
  | Err e => l = [] /\ e = ValueError end.
Proof.
  destruct l as [|x l]; simpl; [auto|]. split; [discriminate|].
  assert (H : forall l x, (fold_left Z.max l x = x \/ In (fold_left Z.max l x) l)
            /\ (x <= fold_left Z.max l x)%Z /\ forall y, In y l -> (y <= fold_left Z.max l x)%Z).
  { clear. induction l; simpl; intros x; [intuition; lia|].
    destruct (IHl (Z.max x a)) as (H1 & H2 & H3). split; [|split].
    - destruct H1 as [H1|H1]; auto. rewrite H1. destruct (Z.max_spec x a) as [[_ ->]|[_ ->]]; auto.
    - lia.
    - intros y [<-|Hy]; auto. lia. }
  destruct (H l x) as (H1 & H2 & H3). split; [destruct H1; auto|]. intros y [<-|Hy]; auto.
Qed.

Lemma decides_raise b (P : Prop) : (b = false <-> P) -> decides (raise_if b ValueError) P.
Proof.
  intros H. destruct b; simpl; [right|left]; split; auto. rewrite <- H; discriminate. apply H; auto.
Qed.
Lemma decides_seq m k P Q : decides m P -> (P -> decides k Q) -> decides (m ;;; k) (P /\ Q).
Proof.
  intros [[-> HP]|[-> HP]] Hk; simpl.
  - destruct (Hk HP) as [[-> HQ]|[-> HQ]]; [left|right]; split; auto; tauto.
  - right; split; auto; tauto.
Qed.
Lemma decides_iff m P Q : (P <-> Q) -> decides m P -> decides m Q.
Proof. intros H [[-> HP]|[-> HP]]; [left|right]; split; auto; tauto. Qed.
Lemma decides_Ok m P : decides m P -> P -> m = Ok tt.
Proof. intros [[-> _]|[-> H]] HP; auto; tauto. Qed.

Lemma decides_minge0 l : decides (m <- zminl l ;; raise_if (Z.ltb m 0) ValueError)
  ((0 < length l)%nat /\ Forall (fun x => (0 <= x)%Z) l).
Proof.
  generalize (zminl_spec l). destruct (zminl l) as [m|e]; simpl.
  - intros (Hne & Hin & Hle). apply decides_raise. rewrite Z.ltb_ge, Forall_forall. split.
    + intros Hm. split; [destruct l; simpl; [congruence|lia]|]. intros x Hx. specialize (Hle x Hx). lia.
    + intros [_ H]. auto.
  - intros [-> ->]. right. simpl. split; auto. lia.
Qed.

Lemma existsb_false_forall {A} (f : A -> bool) l : existsb f l = false <-> Forall (fun x => f x = false) l.
Proof.
  rewrite Forall_forall. split.
  - intros H x Hx. destruct (f x) eqn:E; auto. assert (existsb f l = true) by (apply existsb_exists; eauto). congruence.
  - intros H. destruct (existsb f l) eqn:E; auto. apply existsb_exists in E as (x & Hx & E). rewrite H in E; auto.
Qed.

Lemma pscore_ok x : (nle x (Fin 0) || nlt (Fin 1) x)%bool = false <-> prob_pos_or_nan x.
Proof.
  unfold prob_pos_or_nan. destruct x as [v| | |]; simpl.
  - rewrite orb_false_iff, Rleb_false, Rltb_false. split.
    + intros H; right; exists v; split; auto; lra.
    + intros [H|(w & [= <-] & H)]; [discriminate|lra].
  - split; [discriminate|]. intros [H|(w & H & _)]; discriminate.
  - split; [discriminate|]. intros [H|(w & H & _)]; discriminate.
  - split; auto.
Qed.
Lemma epscore_ok x : (nlt x (Fin 0) || nlt (Fin 1) x)%bool = false <-> prob_or_nan x.
Proof.
  unfold prob_or_nan. destruct x as [v| | |]; simpl.
  - rewrite orb_false_iff, !Rltb_false. split.
    + intros H; right; exists v; split; auto; lra.
    + intros [H|(w & [= <-] & H)]; [discriminate|lra].
  - split; [discriminate|]. intros [H|(w & H & _)]; discriminate.
  - split; [discriminate|]. intros [H|(w & H & _)]; discriminate.
  - split; auto.
Qed.

Lemma check_slate_decides ids rew pos p pe :
  decides (check_slate_ope_inputs ids rew pos p pe) (inputs_valid ids rew pos p pe).
Proof.
  unfold check_slate_ope_inputs.
  assert (E : forall (l : list Z) (k : res unit), (m <- zminl l ;; (raise_if (Z.ltb m 0) ValueError ;;; k))
              = ((m <- zminl l ;; raise_if (Z.ltb m 0) ValueError) ;;; k)).
  { intros l k. destruct (zminl l); reflexivity. }
  rewrite !E.
  eapply decides_iff.
  2:{ apply decides_seq; [apply decides_minge0|intros _].
      apply decides_seq; [apply decides_raise; apply existsb_false_forall|intros _].
      apply decides_seq; [apply decides_raise; apply existsb_false_forall|intros _].
      apply decides_seq; [apply decides_minge0|intros _].
      apply decides_raise. apply iff_refl. }
  rewrite negb_false_iff, !andb_true_iff, !Nat.eqb_eq. split.
  - intros ((Hn & Hpos) & Hp & Hpe & (Hn' & Hids) & (((E1 & E2) & E3) & E4)).
    constructor; auto; try congruence.
    + eapply Forall_impl; [|exact Hp]. intros; apply pscore_ok; auto.
    + eapply Forall_impl; [|exact Hpe]. intros; apply epscore_ok; auto.
  - intros [H1 H2 H3 H4 H5 H6 H7 H8 H9]. repeat split; auto; try congruence.
    + eapply Forall_impl; [|exact H8]. intros; apply pscore_ok; auto.
    + eapply Forall_impl; [|exact H9]. intros; apply epscore_ok; auto.
Qed.

(** duplicates *)
Lemma duplicated_NoDup l : duplicated l = false <-> NoDup l.
Proof.
  induction l as [|x l IH]; simpl; [split; auto; constructor|].
  rewrite orb_false_iff, IH, existsb_false_forall, Forall_forall. split.
  - intros [H1 H2]. constructor; auto. intros Hin. specialize (H1 x Hin). rewrite !Z.eqb_refl in H1. discriminate.
  - intros H; inversion H; subst. split; auto. intros y Hy. destruct (_ && _)%bool eqn:E; auto.
    apply andb_true_iff in E as [E1 E2]. apply Z.eqb_eq in E1, E2. destruct x, y; simpl in *; subst. tauto.
Qed.
Lemma no_repeat_NoDup ids pos : length pos = length ids -> NoDup (combine ids pos) <-> no_repeat ids pos.
Proof.
  intros Hl. rewrite (NoDup_nth (combine ids pos) (0%Z, 0%Z)). rewrite combine_length, Hl, Nat.min_id.
  unfold no_repeat. split; intros H i j Hi Hj.
  - intros E1 E2. apply H; auto. rewrite !combine_nth by auto. congruence.
  - rewrite !combine_nth by auto. intros [= E1 E2]. auto.
Qed.

(** one value per slate *)
Lemma nsame_eq x y : nsame x y = true <-> x = y.
Proof.
  destruct x, y; simpl; split; intros; try discriminate; auto.
  - apply Reqb_true in H; congruence.
  - injection H as ->. apply Reqb_refl.
Qed.
Lemma ndistinct_In l x : In x (ndistinct l) <-> In x l.
Proof.
  induction l as [|a l IH]; simpl; [tauto|]. destruct (existsb (nsame a) (ndistinct l)) eqn:E.
  - apply existsb_exists in E as (y & Hy & E). apply nsame_eq in E as <-. rewrite IH. split; auto.
    intros [<-|H]; auto. apply IH; auto.
  - simpl. rewrite IH. tauto.
Qed.
Lemma ndistinct_NoDup l : NoDup (ndistinct l).
Proof.
  induction l as [|a l IH]; simpl; [constructor|]. destruct (existsb (nsame a) (ndistinct l)) eqn:E; auto.
  constructor; auto. intros H. rewrite existsb_false_forall, Forall_forall in E. specialize (E a H).
  assert (nsame a a = true) by (apply nsame_eq; auto). congruence.
Qed.
Lemma ndistinct_one l : length (ndistinct l) = 1%nat <-> l <> [] /\ forall x y, In x l -> In y l -> x = y.
Proof.
  split.
  - intros H. destruct (ndistinct l) as [|a [|b r]] eqn:E; try discriminate. split.
    + intros ->. discriminate.
    + intros x y Hx Hy. apply ndistinct_In in Hx, Hy. rewrite E in Hx, Hy. simpl in *.
      destruct Hx as [<-|[]], Hy as [<-|[]]; auto.
  - intros [Hne H]. generalize (ndistinct_NoDup l) (ndistinct_In l). destruct (ndistinct l) as [|a [|b r]]; auto.
    + intros _ Hin. destruct l; [congruence|]. destruct (proj2 (Hin n)); simpl; auto.
    + intros Hnd Hin. inversion Hnd; subst. exfalso. apply H2. simpl. left.
      apply H; apply Hin; simpl; auto.
Qed.
Lemma in_slate_In s ids col x : length col = length ids ->
  In x (in_slate s ids col) <-> exists i, (i < length ids)%nat /\ nth i ids 0%Z = s /\ nth i col NaN = x.
Proof.
  intros Hl. unfold in_slate. rewrite in_map_iff. split.
  - intros ((s', y) & E & H). apply filter_In in H as [H1 H2]. simpl in *. apply Z.eqb_eq in H2. subst.
    apply In_nth with (d := (0%Z, NaN)) in H1 as (i & Hi & E). rewrite combine_length, Hl, Nat.min_id in Hi.
    rewrite combine_nth in E by auto. injection E as E1 E2. eauto.
  - intros (i & Hi & E1 & E2). exists (s, x). split; auto. apply filter_In. simpl. split; [|apply Z.eqb_refl].
    subst. rewrite <- combine_nth by auto. apply nth_In. rewrite combine_length, Hl, Nat.min_id; auto.
Qed.
Lemma not_constant_spec ids col : length col = length ids ->
  not_constant ids col = false <-> one_value_per_slate ids col.
Proof.
  intros Hl. unfold not_constant. rewrite existsb_false_forall, Forall_forall. unfold one_value_per_slate. split.
  - intros H i j Hi Hj E. specialize (H (nth i ids 0%Z)). rewrite negb_false_iff, Nat.eqb_eq, ndistinct_one in H.
    apply H; [apply np_unique_In; apply nth_In; auto| |]; apply in_slate_In; eauto.
  - intros H s Hs. rewrite negb_false_iff, Nat.eqb_eq, ndistinct_one. split.
    + rewrite np_unique_In in Hs. apply In_nth with (d := 0%Z) in Hs as (i & Hi & E).
      intros E'. assert (In (nth i col NaN) (in_slate s ids col)) by (apply in_slate_In; [auto|exists i; auto]).
      rewrite E' in H0. inversion H0.
    + intros x y Hx Hy. apply in_slate_In in Hx as (i & Hi & E1 & <-); auto.
      apply in_slate_In in Hy as (j & Hj & E2 & <-); auto. apply H; auto. congruence.
Qed.

Lemma check_iips_decides ids rew pos p pe :
  decides (check_iips_inputs ids rew pos p pe) (inputs_valid ids rew pos p pe /\ no_repeat ids pos).
Proof.
  unfold check_iips_inputs. apply decides_seq; [apply check_slate_decides|]. intros H.
  apply decides_raise. rewrite duplicated_NoDup. apply no_repeat_NoDup. apply H.
Qed.
Lemma check_sips_decides ids rew pos p pe :
  decides (check_sips_inputs ids rew pos p pe)
    (inputs_valid ids rew pos p pe /\ no_repeat ids pos /\
     one_value_per_slate ids p /\ one_value_per_slate ids pe).
Proof.
  unfold check_sips_inputs. apply decides_seq; [apply check_slate_decides|]. intros H.
  apply decides_seq; [|intros _; apply decides_seq; [|intros _]]; apply decides_raise.
  - rewrite duplicated_NoDup. apply no_repeat_NoDup. apply H.
  - apply not_constant_spec. apply H.
  - apply not_constant_spec. apply H.
Qed.

(** sorting *)
Lemma row_insert_perm x l : Permutation (x :: l) (row_insert x l).
Proof.
  induction l as [|y l IH]; simpl; auto. destruct (row_le x y); auto.
  rewrite perm_swap. constructor. exact IH.
Qed.
Lemma row_sort_perm l : Permutation l (row_sort l).
Proof. induction l; simpl; auto. rewrite <- row_insert_perm. constructor; auto. Qed.
Definition rle x y := row_le x y = true.
Lemma row_le_total x y : row_le x y = false -> rle y x.
Proof.
  destruct x as [[s p] u], y as [[s' p'] u']. unfold rle; simpl. intros H.
  apply orb_false_iff in H as [H1 H2]. apply orb_true_iff.
  apply Z.ltb_ge in H1. destruct (Z.eqb_spec s s').
  - simpl in H2. apply Z.leb_gt in H2. right. apply andb_true_iff. split; [apply Z.eqb_eq; auto|apply Z.leb_le; lia].
  - left. apply Z.ltb_lt. lia.
Qed.
Lemma rle_trans x y z : rle x y -> rle y z -> rle x z.
Proof.
  destruct x as [[s p] u], y as [[s' p'] u'], z as [[s2 p2] u2]. unfold rle; simpl.
  rewrite !orb_true_iff, !andb_true_iff, !Z.ltb_lt, !Z.eqb_eq, !Z.leb_le. lia.
Qed.
Lemma row_insert_sorted x l : StronglySorted rle l -> StronglySorted rle (row_insert x l).
Proof.
  induction l as [|y l IH]; simpl; intros H; [constructor; constructor|].
  inversion H as [|? ? H1 H2]; subst. destruct (row_le x y) eqn:E.
  - constructor; auto. constructor; auto. eapply Forall_impl; [|exact H2]. intros z Hz. eapply rle_trans; eauto.
  - constructor; auto. apply Forall_forall. intros z Hz. rewrite Forall_forall in H2.
    apply Permutation_in with (l' := x :: l) in Hz; [|symmetry; apply row_insert_perm].
    destruct Hz as [<-|Hz]; auto. apply row_le_total; auto.
Qed.
Lemma row_sort_sorted l : StronglySorted rle (row_sort l).
Proof. induction l; simpl; [constructor|]. apply row_insert_sorted; auto. Qed.

(** running minimum *)
Lemma min_fold l : forall m, let r := fold_left (fun m x => match m, x with NaN, _ => x | _, NaN => m | _, _ => nmin m x end) l m in
  (r = m \/ In r l) /\ (m <> NaN -> nle r m = true) /\ forall x, In x l -> x <> NaN -> nle r x = true.
Proof.
  induction l as [|a l IH]; simpl; intros m.
  - split; auto. split; [|tauto]. intros H. destruct m; simpl; auto; try congruence. apply Rleb_true; lra.
  - set (m' := match m with NaN => a | _ => match a with NaN => m | _ => nmin m a end end).
    destruct (IH m') as (H1 & H2 & H3).
    assert (Hm : (m' = m \/ m' = a) /\ (m <> NaN -> m' <> NaN /\ nle m' m = true) /\ (a <> NaN -> m' <> NaN /\ nle m' a = true)).
    { unfold m', nmin. destruct m as [u| | |], a as [v| | |]; simpl;
        try (destruct (Rleb u v) eqn:E; [apply Rleb_true in E|apply Rleb_false in E]); simpl;
        (split; [auto|split; intros; split; try congruence; auto]); apply Rleb_true; lra. }
    assert (Ht : forall r x y, nle r x = true -> nle x y = true -> nle r y = true).
    { intros r x y. destruct r, x, y; simpl; try discriminate; auto. rewrite !Rleb_true; lra. }
    destruct Hm as (Ha & Hb & Hc). split; [|split].
    + destruct H1 as [->|H1]; [|auto]. destruct Ha as [->| ->]; auto.
    + intros Hm. destruct (Hb Hm) as [Hn Hle]. eapply Ht; [apply H2; exact Hn|exact Hle].
    + intros x [<-|Hx] Hnan; [|auto]. destruct (Hc Hnan) as [Hn Hle]. eapply Ht; [apply H2; exact Hn|exact Hle].
Qed.
Lemma min_skipna_In l : min_skipna l = NaN \/ In (min_skipna l) l.
Proof. destruct (min_fold l NaN) as (H & _ & _). exact H. Qed.
Lemma min_skipna_le l x : In x l -> x <> NaN -> nle (min_skipna l) x = true.
Proof. destruct (min_fold l NaN) as (_ & _ & H). apply H. Qed.

Lemma min_skipna_nlt l v : nlt (min_skipna (l ++ [v])) v = false <-> forall x, In x l -> nlt x v = false.
Proof.
  split.
  - intros H x Hx. destruct (nlt x v) eqn:E; auto.
    assert (Hn : x <> NaN) by (intros ->; discriminate).
    assert (Hle := min_skipna_le (l ++ [v]) x (in_or_app _ _ _ (or_introl Hx)) Hn).
    destruct (min_skipna (l ++ [v])) as [m| | |], x as [x| | |], v as [v| | |]; simpl in *; try discriminate.
    apply Rleb_true in Hle. apply Rltb_true in E. apply Rltb_false in H. lra.
  - intros H. destruct (min_skipna_In (l ++ [v])) as [E|E]; [rewrite E; destruct v; reflexivity|].
    apply in_app_iff in E as [E|[E|[]]]; auto. rewrite <- E. destruct v; simpl; auto. apply Rltb_false; lra.
Qed.

Lemma increases_false seen rows :
  increases seen rows = false <->
  forall a s v b, rows = a ++ (s, v) :: b -> forall v', In (s, v') (seen ++ a) -> nlt v' v = false.
Proof.
  revert seen. induction rows as [|[s v] rows IH]; intros seen; simpl.
  - split; auto. intros _ a s v b H. destruct a; discriminate.
  - rewrite orb_false_iff, IH. rewrite filter_app, map_app. simpl. rewrite Z.eqb_refl. simpl.
    rewrite min_skipna_nlt.
    assert (Hf : forall v', In v' (map snd (filter (fun x : Z * num => (fst x =? s)%Z) seen)) <-> In (s, v') seen).
    { intros v'. rewrite in_map_iff. split.
      - intros ((s', w) & <- & H). apply filter_In in H as [H1 H2]. apply Z.eqb_eq in H2. simpl in *; subst; auto.
      - intros H. exists (s, v'). split; auto. apply filter_In. split; auto. simpl. apply Z.eqb_refl. }
    split.
    + intros [H1 H2] a s0 v0 b E v' Hin. destruct a as [|y a].
      * simpl in E. injection E as <- <- <-. rewrite app_nil_r in Hin. apply H1. apply Hf; auto.
      * simpl in E. injection E as <- ->. apply (H2 a s0 v0 b eq_refl). rewrite <- app_assoc. exact Hin.
    + intros H. split.
      * intros x Hx. apply (H [] s v rows eq_refl). rewrite app_nil_r. apply Hf; auto.
      * intros a s0 v0 b -> v' Hin. apply (H ((s, v) :: a) s0 v0 b eq_refl). rewrite <- app_assoc in Hin. exact Hin.
Qed.

Lemma sorted_before {A} (R : A -> A -> Prop) l x y : StronglySorted R l -> In x l -> In y l -> ~ R y x -> x <> y ->
  exists a b, l = a ++ y :: b /\ In x a.
Proof.
  intros Hs Hx Hy Hn Hne. apply in_split in Hy as (a & b & ->). exists a, b. split; auto.
  apply in_app_iff in Hx as [Hx|[Hx|Hx]]; auto; [congruence|]. exfalso. apply Hn.
  clear Hne. induction a as [|z a IH]; simpl in Hs.
  - inversion Hs; subst. rewrite Forall_forall in H2. auto.
  - inversion Hs; subst. auto.
Qed.
Lemma sorted_split {A} (R : A -> A -> Prop) a x b z : StronglySorted R (a ++ x :: b) -> In z a -> R z x.
Proof.
  intros Hs Hz. induction a as [|w a IH]; simpl in *; [tauto|]. inversion Hs; subst. destruct Hz as [<-|Hz]; auto.
  rewrite Forall_forall in H2. apply H2. apply in_or_app; simpl; auto.
Qed.

(** The sorted-rows test is the order-free condition. *)
Lemma map_split {A B} (f : A -> B) l a y b : map f l = a ++ y :: b ->
  exists a' x b', l = a' ++ x :: b' /\ map f a' = a /\ f x = y /\ map f b' = b.
Proof.
  revert l; induction a as [|z a IH]; intros [|w l] H; simpl in H; try discriminate.
  - injection H as <- <-. exists [], w, l. auto.
  - injection H as <- H. destruct (IH l H) as (a' & x & b' & -> & <- & <- & <-). exists (w :: a'), x, b'. auto.
Qed.

Lemma map_fst_combine {A B} (a : list A) (b : list B) : length a = length b -> map fst (combine a b) = a.
Proof. revert b; induction a; destruct b; simpl; intros; try discriminate; auto. f_equal. auto. Qed.

Lemma row_In (ids pos : list Z) (p pe : list num) s k u v :
  length pos = length ids -> length p = length ids -> length pe = length ids ->
  In (s, k, (u, v)) (combine (combine ids pos) (combine p pe)) <->
  exists i, (i < length ids)%nat /\ nth i ids 0%Z = s /\ nth i pos 0%Z = k /\ nth i p NaN = u /\ nth i pe NaN = v.
Proof.
  intros H1 H2 H3.
  assert (Hn : forall i, nth i (combine (combine ids pos) (combine p pe)) ((0%Z,0%Z),(NaN,NaN))
             = ((nth i ids 0%Z, nth i pos 0%Z), (nth i p NaN, nth i pe NaN))).
  { intros i. rewrite combine_nth by (rewrite !combine_length; lia). rewrite !combine_nth by lia. reflexivity. }
  assert (Hl : length (combine (combine ids pos) (combine p pe)) = length ids) by (rewrite !combine_length; lia).
  split.
  - intros H. apply In_nth with (d := ((0%Z,0%Z),(NaN,NaN))) in H as (i & Hi & E). rewrite Hl in Hi. rewrite Hn in E.
    injection E as E1 E2 E3 E4. exists i. auto.
  - intros (i & Hi & <- & <- & <- & <-). rewrite <- Hn. apply nth_In. rewrite Hl; auto.
Qed.

Lemma increases_spec ids pos p pe col (sel : num * num -> num) :
  length pos = length ids -> length p = length ids -> length pe = length ids ->
  (forall i, (i < length ids)%nat -> sel (nth i p NaN, nth i pe NaN) = nth i col NaN) ->
  no_repeat ids pos ->
  increases [] (map (fun x => (fst (fst x), sel (snd x)))
     (row_sort (combine (combine ids pos) (combine p pe)))) = false <-> never_increases ids pos col.
Proof.
  intros Hl1 Hl2 Hl3 Hsel Hnr. set (rows := combine _ _). rewrite increases_false. unfold never_increases.
  assert (Hin : forall x, In x (row_sort rows) <-> In x rows).
  { intros x; split; apply Permutation_in; [symmetry|]; apply row_sort_perm. }
  split.
  - intros H i j Hi Hj E Hlt.
    set (x := (nth i ids 0%Z, nth i pos 0%Z, (nth i p NaN, nth i pe NaN))).
    set (y := (nth j ids 0%Z, nth j pos 0%Z, (nth j p NaN, nth j pe NaN))).
    assert (Hx : In x (row_sort rows)) by (apply Hin, row_In; eauto 10).
    assert (Hy : In y (row_sort rows)) by (apply Hin, row_In; eauto 10).
    destruct (sorted_before rle (row_sort rows) x y) as (a & b & Es & Ha); auto.
    { apply row_sort_sorted. }
    { unfold rle, x, y; simpl. rewrite orb_true_iff, andb_true_iff, Z.ltb_lt, Z.eqb_eq, Z.leb_le. lia. }
    { unfold x, y. intros [= E1 E2]. lia. }
    rewrite Es, map_app in H. simpl in H. specialize (H _ _ _ _ eq_refl (nth i col NaN)).
    rewrite <- Hsel by auto. rewrite Hsel by auto. rewrite (Hsel j Hj) in H. apply H. simpl.
    rewrite <- E. apply in_map_iff. exists x. split; auto. unfold x; simpl. rewrite Hsel by auto. reflexivity.
  - intros H a s v b E v' Hv. simpl in Hv. apply map_split in E as (a' & y & b' & Es & <- & Ey & _).
    apply in_map_iff in Hv as (x & Ex & Hx).
    destruct y as [[sy py] [uy vy]], x as [[sx px] [ux vx]]. simpl in *. injection Ey as -> Ey. injection Ex as -> Ex.
    assert (Hle : rle (s, px, (ux, vx)) (s, py, (uy, vy))).
    { apply sorted_split with (a := a') (b := b'); auto. rewrite <- Es. apply row_sort_sorted. }
    assert (Hnd : NoDup (map fst (row_sort rows))).
    { eapply Permutation_NoDup; [apply Permutation_map, row_sort_perm|].
      replace (map fst rows) with (combine ids pos); [apply no_repeat_NoDup; auto|].
      unfold rows. symmetry. apply map_fst_combine. rewrite !combine_length; lia. }
    assert (Hne : px <> py).
    { intros ->. rewrite Es, map_app in Hnd. simpl in Hnd. apply NoDup_remove_2 in Hnd. apply Hnd.
      apply in_or_app. left. apply in_map_iff. exists (s, py, (ux, vx)). auto. }
    assert (Hlt : (px < py)%Z).
    { unfold rle in Hle; simpl in Hle. rewrite Z.eqb_refl, Z.ltb_irrefl in Hle. simpl in Hle. apply Z.leb_le in Hle. lia. }
    assert (Hx' : In (s, px, (ux, vx)) rows). { apply Hin. rewrite Es. apply in_or_app; auto. }
    assert (Hy' : In (s, py, (uy, vy)) rows). { apply Hin. rewrite Es. apply in_or_app; simpl; auto. }
    apply row_In in Hx' as (i & Hi & E1 & E2 & E3 & E4); auto.
    apply row_In in Hy' as (j & Hj & F1 & F2 & F3 & F4); auto.
    specialize (H i j Hi Hj). rewrite <- !Hsel in H by auto. rewrite E3, E4, F3, F4, Ex, Ey in H. apply H; congruence || lia.
Qed.

Lemma check_rips_decides ids rew pos p pe :
  decides (check_rips_inputs ids rew pos p pe)
    (inputs_valid ids rew pos p pe /\ no_repeat ids pos /\
     never_increases ids pos p /\ never_increases ids pos pe).
Proof.
  unfold check_rips_inputs. apply decides_seq; [apply check_slate_decides|]. intros [H1 H2 H3 H4 H5 _ _ _ _].
  apply decides_seq; [|intros Hnr; apply decides_seq; [|intros _]]; apply decides_raise.
  - rewrite duplicated_NoDup, <- no_repeat_NoDup by auto.
    assert (E : map fst (combine (combine ids pos) (combine p pe)) = combine ids pos).
    { apply map_fst_combine. rewrite !combine_length; lia. }
    rewrite <- E at 2. split; intros H.
    + eapply Permutation_NoDup; [|exact H]. apply Permutation_map. symmetry. apply row_sort_perm.
    + eapply Permutation_NoDup; [|exact H]. apply Permutation_map. apply row_sort_perm.
  - apply (increases_spec ids pos p pe p fst); auto.
  - apply (increases_spec ids pos p pe pe snd); auto.
Qed.

Lemma forallb_seq_map {A} (p : A -> bool) (f : nat -> A) n :
  forallb p (map f (seq 0 n)) = true <-> forall j, (j < n)%nat -> p (f j) = true.
Proof. apply (forallb_tab n f p). Qed.

Lemma check_cascade_decides K ids act rew pos p pe q_hat edist : (0 < K)%nat ->
  decides (check_cascade_dr_inputs K ids act rew pos p pe q_hat edist)
    ((inputs_valid ids rew pos p pe /\ no_repeat ids pos /\
      never_increases ids pos p /\ never_increases ids pos pe) /\ cascade_inputs K ids act q_hat edist).
Proof.
  intros HK. unfold check_cascade_dr_inputs. apply decides_seq; [apply check_rips_decides|]. intros [Hv _].
  pose proof (iv_n _ _ _ _ _ Hv) as Hn. clear Hv.
  generalize (zminl_spec act) (zmaxl_spec act). destruct (zminl act) as [mn|e]; simpl.
  2:{ intros [-> ->] _. right. split; auto. intros [H1 H2 _ _ _]. simpl in H2. lia. }
  destruct (zmaxl act) as [mx|e]; simpl; [|intros (H & _) [H' _]; congruence].
  intros (_ & Hmin & Hle) (_ & Hmax & Hge).
  eapply decides_iff.
  2:{ apply decides_seq; [apply decides_raise; apply iff_refl|intros _].
      apply (decides_seq _ _ (Nat.div (length q_hat) K = length ids /\ Nat.div (length edist) K = length ids /\ length act = length ids)).
      - apply decides_raise. rewrite negb_false_iff, !andb_true_iff, !Nat.eqb_eq. split; intros; intuition congruence.
      - intros (Hq & Hd & Ha).
        apply (decides_iff _ (length edist = (length ids * K)%nat /\
          forall j, (j < length ids)%nat -> exists v, fold_right nadd (Fin 0) (firstn K (skipn (j * K) edist)) = Fin v /\
             Rabs (v - 1) <= 1 / 100000000 + 1 / 100000)); [apply iff_refl|].
        unfold reshape. replace (Nat.eqb K 0) with false by (symmetry; apply Nat.eqb_neq; lia). simpl.
        destruct (Nat.eqb_spec (length edist mod K) 0) as [Hm|Hm]; simpl.
        + assert (Hlen : length edist = (length ids * K)%nat).
          { pose proof (Nat.div_mod (length edist) K ltac:(lia)). rewrite Hd, Hm in H. lia. }
          rewrite Hd. apply decides_raise. rewrite negb_false_iff.
          etransitivity; [apply (forallb_seq_map _ (fun i => firstn K (skipn (i * K) edist)))|]. split.
          * intros H. split; auto. intros j Hj. specialize (H j Hj). apply isclose1_inv in H as (v & E & Hv). exists v. split; auto.
          * intros [_ H] j Hj. destruct (H j Hj) as (v & E & Hv). unfold nsum. rewrite E. simpl. apply Rleb_true. lra.
        + right. split; auto. intros [H _]. rewrite H, Nat.mod_mul in Hm by lia. congruence. }
  rewrite negb_false_iff, andb_true_iff, Z.leb_le, Z.ltb_lt. split.
  - intros ([H1 H2] & (Hq & Hd & Ha) & Hl & Hs). constructor; auto. apply Forall_forall. intros a Hin.
    specialize (Hle a Hin). specialize (Hge a Hin). lia.
  - intros [H1 H2 H3 H4 H5]. rewrite Forall_forall in H1. split; [|split]; auto.
    + split; [apply H1 in Hmin; lia|apply H1 in Hmax; lia].
    + repeat split; auto. rewrite H4. apply Nat.div_mul. lia.
Qed.
