(** * L_Utils: lemmas about obp/utils.py. *)

From Coq Require Import Reals List ZArith Bool Lia Lra Permutation Sorted.
From Verif Require Import Num NpList M_Utils M_Estimators S_Base S_Estimators L_Num L_Base L_Estimators L_EstProps.
Import ListNotations.
Open Scope R_scope.

(** ** sigmoid *)

Lemma sigmoid_with_ok ex x : (forall y, y <= 0 -> ex y = exp y) ->
  sigmoid_with ex x = 1 / (1 + exp (- x)).
Proof.
  intros H. unfold sigmoid_with.
  assert (Rmin x 0 <= 0) by apply Rmin_r.
  assert (- Rabs x <= 0) by (pose proof (Rabs_pos x); lra).
  rewrite !H by auto. pose proof (exp_pos (- x)). pose proof (exp_pos x).
  destruct (Rle_dec 0 x).
  - rewrite Rmin_right, Rabs_right, exp_0 by lra. reflexivity.
  - rewrite Rmin_left, Rabs_left by lra. rewrite Ropp_involutive.
    rewrite exp_Ropp. field. split; lra.
Qed.

(** ** softmax *)

Lemma fold_Rmax_ge r a : a <= fold_left Rmax r a.
Proof.
  revert a; induction r as [|b r IH]; simpl; intros a; [lra|].
  eapply Rle_trans; [|apply IH]. apply Rmax_l.
Qed.
Lemma Rmaxl_ge x v : In v x -> v <= Rmaxl x.
Proof.
  destruct x as [|a r]; [easy|]. simpl. revert a. induction r as [|b r IH]; simpl; intros a [H|H].
  - subst; lra.
  - easy.
  - subst a. eapply Rle_trans; [|apply fold_Rmax_ge]. apply Rmax_l.
  - destruct H as [H|H].
    + subst b. eapply Rle_trans; [|apply fold_Rmax_ge]. apply Rmax_r.
    + apply IH. right; auto.
Qed.

Lemma Rmaxl_In x : x <> [] -> In (Rmaxl x) x.
Proof.
  destruct x as [|a r]; [easy|]. intros _. simpl. revert a. induction r as [|b r IH]; simpl; intros a; auto.
  destruct (IH (Rmax a b)) as [E|E].
  - rewrite <- E. unfold Rmax. destruct (Rle_dec a b); auto.
  - auto.
Qed.

Lemma Rmaxl_shift c x : x <> [] -> Rmaxl (map (fun v => v + c) x) = Rmaxl x + c.
Proof.
  destruct x as [|a r]; [easy|]. intros _. simpl. revert a. induction r as [|b r IH]; simpl; intros a; auto.
  rewrite <- IH. f_equal. unfold Rmax. destruct (Rle_dec (a + c) (b + c)), (Rle_dec a b); lra.
Qed.

Lemma Rsum_pos l : l <> [] -> (forall v, In v l -> 0 < v) -> 0 < Rsum l.
Proof.
  destruct l as [|a r]; [easy|]. intros _ H. simpl.
  assert (forall l, (forall v, In v l -> 0 < v) -> 0 <= Rsum l) as HN.
  { clear. induction l; simpl; intros; [lra|]. specialize (H a (or_introl eq_refl)) as Ha.
    assert (0 <= Rsum l) by (apply IHl; auto). lra. }
  specialize (H a (or_introl eq_refl)) as Ha. assert (0 <= Rsum r) by (apply HN; intros; apply H; right; auto). lra.
Qed.

Lemma Rsum_map_scal c l : Rsum (map (fun v => v * c) l) = Rsum l * c.
Proof. induction l; simpl; [lra|]. rewrite IHl. lra. Qed.

Lemma Rsum_app l l' : Rsum (l ++ l') = Rsum l + Rsum l'.
Proof. induction l; simpl; [lra|]. rewrite IHl; lra. Qed.

Lemma Rsum_tab n f : Rsum (tab n f) = sumn n f.
Proof. revert f; induction n; intros; auto. rewrite tab_S, Rsum_app, IHn. simpl. lra. Qed.

Lemma softmax_row_with_ext ex x : (forall y, y <= 0 -> ex y = exp y) ->
  softmax_row_with ex x = softmax_row x.
Proof.
  intros H. unfold softmax_row, softmax_row_with.
  assert (E : map (fun v => ex (v - Rmaxl x)) x = map (fun v => exp (v - Rmaxl x)) x).
  { apply map_ext_in. intros v Hv. apply H. pose proof (Rmaxl_ge x v Hv). lra. }
  rewrite E. reflexivity.
Qed.

Lemma softmax_den_pos x : x <> [] -> 0 < Rsum (map (fun v => exp (v - Rmaxl x)) x).
Proof.
  intros H. apply Rsum_pos.
  - destruct x; easy.
  - intros v Hv. apply in_map_iff in Hv as (y & <- & _). apply exp_pos.
Qed.

(** softmax is exp(x_i) / sum exp(x_j) *)
Lemma softmax_row_formula x : x <> [] ->
  softmax_row x = map (fun v => exp v / Rsum (map exp x)) x.
Proof.
  intros H. unfold softmax_row, softmax_row_with. rewrite map_map. set (b := Rmaxl x).
  assert (E : map (fun v => exp (v - b)) x = map (fun v => v * exp (- b)) (map exp x)).
  { rewrite map_map. apply map_ext. intros v. rewrite <- exp_plus. reflexivity. }
  rewrite E, Rsum_map_scal. apply map_ext. intros v.
  assert (0 < Rsum (map exp x)).
  { apply Rsum_pos. destruct x; easy. intros y Hy. apply in_map_iff in Hy as (z & <- & _). apply exp_pos. }
  pose proof (exp_pos (- b)). unfold Rminus. rewrite exp_plus. field. split; lra.
Qed.

Lemma expsum_pos x : x <> [] -> 0 < Rsum (map exp x).
Proof.
  intros H. apply Rsum_pos. destruct x; easy.
  intros y Hy. apply in_map_iff in Hy as (z & <- & _). apply exp_pos.
Qed.

Lemma softmax_row_pos x v : In v (softmax_row x) -> 0 < v.
Proof.
  intros Hv. assert (x <> []) by (destruct x; [destruct Hv|easy]).
  rewrite softmax_row_formula in Hv by auto. apply in_map_iff in Hv as (y & <- & _).
  apply Rmult_lt_0_compat. apply exp_pos. apply Rinv_0_lt_compat, expsum_pos; auto.
Qed.

Lemma softmax_row_sum x : x <> [] -> Rsum (softmax_row x) = 1.
Proof.
  intros H. rewrite softmax_row_formula by auto. pose proof (expsum_pos x H).
  replace (map (fun v => exp v / Rsum (map exp x)) x)
    with (map (fun v => v * / Rsum (map exp x)) (map exp x)) by (rewrite map_map; reflexivity).
  rewrite Rsum_map_scal. field. lra.
Qed.

Lemma softmax_row_shift c x : softmax_row (map (fun v => v + c) x) = softmax_row x.
Proof.
  destruct x as [|a r]; [reflexivity|]. remember (a :: r) as x. assert (Hx : x <> []) by (subst; easy).
  rewrite !softmax_row_formula; auto. 2:{ subst; easy. }
  rewrite !map_map. pose proof (expsum_pos x Hx). pose proof (exp_pos c).
  assert (E : Rsum (map (fun v => exp (v + c)) x) = Rsum (map exp x) * exp c).
  { rewrite <- Rsum_map_scal, map_map. f_equal. apply map_ext. intros v. apply exp_plus. }
  rewrite E. apply map_ext. intros v. rewrite exp_plus. field. split; lra.
Qed.

Lemma softmax_row_length x : length (softmax_row x) = length x.
Proof. unfold softmax_row, softmax_row_with. rewrite !map_length. reflexivity. Qed.

Lemma softmax_row_nth x i : (i < length x)%nat ->
  nth i (softmax_row x) 0 = exp (nth i x 0) / Rsum (map exp x).
Proof.
  intros Hi. rewrite softmax_row_formula by (destruct x; [simpl in Hi; lia|easy]).
  rewrite (nth_indep _ 0 (exp 0 / Rsum (map exp x))) by (rewrite map_length; auto).
  apply (map_nth (fun v => exp v / Rsum (map exp x))).
Qed.

Lemma softmax_row_order x i j : (i < length x)%nat -> (j < length x)%nat ->
  (nth i x 0 < nth j x 0 <-> nth i (softmax_row x) 0 < nth j (softmax_row x) 0).
Proof.
  intros Hi Hj. rewrite !softmax_row_nth by auto.
  assert (Hp : 0 < / Rsum (map exp x)) by (apply Rinv_0_lt_compat, expsum_pos; destruct x; [simpl in *; lia|easy]).
  split; intros H.
  - apply Rmult_lt_compat_r; auto. apply exp_increasing; auto.
  - apply Rmult_lt_reg_r in H; auto. apply exp_lt_inv; auto.
Qed.

(** ** sampler *)

Lemma cumsum_from_length acc l : length (cumsum_from acc l) = length l.
Proof. revert acc; induction l; simpl; intros; auto. Qed.
Lemma cumsum_from_nth acc l i d : (i < length l)%nat ->
  nth i (cumsum_from acc l) d = acc + Rsum (firstn (S i) l).
Proof.
  revert acc i; induction l; simpl; intros acc i Hi; [lia|].
  destruct i; simpl. lra. rewrite IHl by lia. simpl. lra.
Qed.

Lemma find_true_spec l k :
  match find_true l k with
  | Some i => (k <= i < k + length l)%nat /\ nth (i - k) l false = true /\
              forall j, (k <= j < i)%nat -> nth (j - k) l false = false
  | None => forall j, (j < length l)%nat -> nth j l false = false
  end.
Proof.
  revert k; induction l as [|b l IH]; simpl; intros k; [intros; lia|].
  destruct b.
  - split; [lia|]. split. rewrite Nat.sub_diag; auto. intros; lia.
  - specialize (IH (S k)). destruct (find_true l (S k)) as [i|].
    + destruct IH as (H1 & H2 & H3). split; [lia|]. split.
      * replace (i - k)%nat with (S (i - S k)) by lia. auto.
      * intros j Hj. destruct (Nat.eq_dec j k). subst; rewrite Nat.sub_diag; auto.
        replace (j - k)%nat with (S (j - S k)) by lia. apply H3; lia.
    + intros j Hj. destruct j; auto. apply IH; lia.
Qed.

Lemma Rsum_firstn_mono row i j : (forall v, In v row -> 0 <= v) -> (i <= j)%nat ->
  Rsum (firstn i row) <= Rsum (firstn j row).
Proof.
  intros Hn Hij. revert i j Hij Hn. induction row as [|a row IH]; intros i j Hij Hn.
  - rewrite !firstn_nil. lra.
  - destruct i, j; simpl; try lia; try lra.
    + specialize (IH 0%nat j ltac:(lia) (fun v H => Hn v (or_intror H))). simpl in IH.
      specialize (Hn a (or_introl eq_refl)). lra.
    + specialize (IH i j ltac:(lia) (fun v H => Hn v (or_intror H))). lra.
Qed.

Lemma firstn_S_sum row i : (i < length row)%nat ->
  Rsum (firstn (S i) row) = Rsum (firstn i row) + nth i row 0.
Proof.
  revert i; induction row; simpl; intros i Hi; [lia|]. destruct i; simpl. lra.
  specialize (IHrow i ltac:(lia)). simpl in IHrow. lra.
Qed.

Lemma sample_row_none row u : (forall i, (i < length row)%nat -> Rsum (firstn (S i) row) <= u) ->
  sample_action_row row u = 0%nat.
Proof.
  intros H. unfold sample_action_row, argmax_bool.
  pose proof (find_true_spec (map (fun c => Rltb u c) (cumsum row)) 0) as HF.
  destruct (find_true _ 0) as [i|]; auto. exfalso. destruct HF as (H1 & H2 & _).
  rewrite map_length in H1. unfold cumsum in *. rewrite cumsum_from_length in H1.
  rewrite Nat.sub_0_r in H2.
  rewrite (nth_indep _ _ (Rltb u 0)) in H2 by (rewrite map_length, cumsum_from_length; lia).
  rewrite (map_nth (fun c => Rltb u c)) in H2.
  rewrite cumsum_from_nth in H2 by lia. apply Rltb_true in H2. specialize (H i ltac:(lia)). lra.
Qed.

Lemma sample_row_char row u a : (forall v, In v row -> 0 <= v) -> 0 <= u ->
  (a < length row)%nat -> Rsum (firstn a row) <= u < Rsum (firstn (S a) row) ->
  sample_action_row row u = a.
Proof.
  intros Hn Hu Ha [H1 H2]. unfold sample_action_row, argmax_bool.
  pose proof (find_true_spec (map (fun c => Rltb u c) (cumsum row)) 0) as HF.
  assert (HN : forall j, (j < length row)%nat ->
            nth j (map (fun c => Rltb u c) (cumsum row)) false = Rltb u (Rsum (firstn (S j) row))).
  { intros j Hj. rewrite (nth_indep _ _ (Rltb u 0)) by (rewrite map_length; unfold cumsum; rewrite cumsum_from_length; lia).
    rewrite (map_nth (fun c => Rltb u c)). unfold cumsum. rewrite cumsum_from_nth by lia. rewrite Rplus_0_l; auto. }
  assert (HL : length (map (fun c => Rltb u c) (cumsum row)) = length row).
  { rewrite map_length. unfold cumsum. apply cumsum_from_length. }
  destruct (find_true _ 0) as [i|].
  - destruct HF as (G1 & G2 & G3). rewrite HL in G1. rewrite Nat.sub_0_r in G2.
    rewrite HN in G2 by lia. apply Rltb_true in G2.
    destruct (Nat.lt_trichotomy i a) as [C|[C|C]]; auto.
    + pose proof (Rsum_firstn_mono row (S i) a Hn ltac:(lia)). lra.
    + specialize (G3 a ltac:(lia)). rewrite Nat.sub_0_r, HN in G3 by lia. apply Rltb_false in G3. lra.
  - specialize (HF a ltac:(lia)). rewrite HN in HF by lia. apply Rltb_false in HF. lra.
Qed.

Lemma bucket_exists row u : (forall v, In v row -> 0 <= v) -> 0 <= u < Rsum row ->
  exists a, (a < length row)%nat /\ Rsum (firstn a row) <= u < Rsum (firstn (S a) row).
Proof.
  revert u; induction row as [|x row IH]; simpl; intros u Hn Hu; [lra|].
  destruct (Rlt_dec u x) as [Hx|Hx].
  - exists 0%nat. simpl. split; [lia|lra].
  - destruct (IH (u - x)) as (a & Ha & Hb); auto. lra.
    exists (S a). split; [lia|]. simpl in *. lra.
Qed.

Lemma sample_row_spec row u : (forall v, In v row -> 0 <= v) -> 0 <= u < Rsum row ->
  let a := sample_action_row row u in
  (a < length row)%nat /\ Rsum (firstn a row) <= u < Rsum (firstn (S a) row) /\ 0 < nth a row 0.
Proof.
  intros Hn Hu. destruct (bucket_exists row u Hn Hu) as (a & Ha & Hb).
  rewrite (sample_row_char row u a) by (auto; lra). simpl. split; auto. split; auto.
  pose proof (firstn_S_sum row a Ha) as E. rewrite E in Hb. lra.
Qed.

Lemma sample_fast_nth ad us i : length us = length ad -> (i < length ad)%nat ->
  nth i (sample_action_fast ad us) 0%nat = sample_action_row (nth i ad []) (nth i us 0).
Proof.
  intros HL Hi. unfold sample_action_fast.
  rewrite (nth_indep _ 0%nat ((fun p => sample_action_row (fst p) (snd p)) ([], 0)))
    by (rewrite map_length, combine_length, HL, Nat.min_id; auto).
  rewrite (map_nth (fun p => sample_action_row (fst p) (snd p))). rewrite combine_nth by auto. reflexivity.
Qed.

(** ** bootstrap *)

Lemma rinsert_perm x l : Permutation (rinsert x l) (x :: l).
Proof.
  induction l; simpl; auto. destruct (Rleb x a); auto.
  rewrite IHl. apply perm_swap.
Qed.
Lemma rsort_perm l : Permutation (rsort l) l.
Proof. induction l; simpl; auto. rewrite rinsert_perm. auto. Qed.
Lemma rsort_length l : length (rsort l) = length l.
Proof. apply Permutation_length, rsort_perm. Qed.

Fixpoint rsorted (l : list R) : Prop :=
  match l with
  | [] => True
  | x :: r => (forall y, In y r -> x <= y) /\ rsorted r
  end.
Lemma rinsert_sorted x l : rsorted l -> rsorted (rinsert x l).
Proof.
  induction l as [|a l IH]; simpl; intros H. { split; auto. intros y []. } destruct H as [H1 H2].
  destruct (Rleb x a) eqn:E.
  - apply Rleb_true in E. simpl. repeat split; auto.
    intros y [->|Hy]; auto. specialize (H1 y Hy). lra.
  - apply Rleb_false in E. simpl. split; [|auto]. intros y Hy.
    apply (Permutation_in _ (rinsert_perm x l)) in Hy. destruct Hy as [<-|Hy]; auto. lra.
Qed.
Lemma rsort_sorted l : rsorted (rsort l).
Proof. induction l; simpl; auto. apply rinsert_sorted; auto. Qed.
Lemma rsorted_nth l i j d : rsorted l -> (i <= j)%nat -> (j < length l)%nat -> nth i l d <= nth j l d.
Proof.
  revert i j; induction l as [|a l IH]; simpl; intros i j H Hij Hj; [lia|]. destruct H as [H1 H2].
  destruct i, j; try lia; try lra.
  - apply H1. apply nth_In. lia.
  - apply IH; auto; lia.
Qed.

Lemma rsorted_unique l l' : rsorted l -> rsorted l' -> Permutation l l' -> l = l'.
Proof.
  revert l'. induction l as [|a l IH]; intros [|b l'] H H' HP; auto.
  - apply Permutation_nil in HP. discriminate.
  - symmetry in HP. apply Permutation_nil in HP. discriminate.
  - assert (E : a = b).
    { destruct H as [H _], H' as [H' _].
      assert (Ha : In a (b :: l')) by (apply (Permutation_in _ HP); left; auto).
      assert (Hb : In b (a :: l)) by (apply (Permutation_in _ (Permutation_sym HP)); left; auto).
      destruct Ha as [<-|Ha]; auto. destruct Hb as [<-|Hb]; auto.
      specialize (H _ Hb). specialize (H' _ Ha). lra. }
    subst b. f_equal. apply IH; [apply H|apply H'|]. eapply Permutation_cons_inv; eauto.
Qed.
Lemma rsorted_tab m s : (forall i j, (i <= j < m)%nat -> s i <= s j) -> rsorted (tab m s).
Proof.
  revert s. induction m as [|m IH]; intros s H; [exact I|]. rewrite tab_S_first. split.
  - intros y Hy. apply In_tab in Hy as (i & Hi & <-). apply H. lia.
  - apply IH. intros i j Hij. apply H. lia.
Qed.

Lemma Int_part_spec h : IZR (Int_part h) <= h < IZR (Int_part h) + 1.
Proof. pose proof (base_Int_part h). lra. Qed.
Lemma Int_part_nonneg h : 0 <= h -> (0 <= Int_part h)%Z.
Proof.
  intros H. pose proof (Int_part_spec h). apply Znot_gt_le. intros G.
  assert ((Int_part h <= -1)%Z) by lia. apply IZR_le in H1. lra.
Qed.
Lemma Int_part_le a b : a <= b -> (Int_part a <= Int_part b)%Z.
Proof.
  intros H. pose proof (Int_part_spec a). pose proof (Int_part_spec b).
  apply Znot_gt_le. intros G. assert ((Int_part b + 1 <= Int_part a)%Z) by lia.
  apply IZR_le in H2. rewrite plus_IZR in H2. lra.
Qed.

Section Quantile.
  Variable l : list R.
  Hypothesis Hl : l <> [].
  Let m := length l.
  Let s := rsort l.
  Let v i := nth i s 0.

  Lemma q_len : (0 < m)%nat.
  Proof. unfold m. destruct l; [easy|simpl; lia]. Qed.
  Lemma v_mono i j : (i <= j)%nat -> (j < m)%nat -> v i <= v j.
  Proof. intros. apply rsorted_nth; auto. apply rsort_sorted. unfold s; rewrite rsort_length; auto. Qed.

  (** The index of the quantile and the two neighbours. *)
  Lemma q_idx q : 0 <= q <= 1 ->
    exists i t, (i < m)%nat /\ 0 <= t < 1 /\ q * INR (m - 1) = INR i + t /\
      quantile l q = v i + (v (Nat.min (S i) (m - 1)) - v i) * t.
  Proof.
    intros Hq. pose proof q_len as Hm. set (h := q * INR (m - 1)).
    assert (Hh0 : 0 <= h) by (apply Rmult_le_pos; [lra|apply pos_INR]).
    assert (Hh1 : h <= INR (m - 1)).
    { unfold h. rewrite <- (Rmult_1_l (INR (m - 1))) at 2. apply Rmult_le_compat_r; [apply pos_INR|lra]. }
    pose proof (Int_part_spec h). pose proof (Int_part_nonneg h Hh0).
    exists (Z.to_nat (Int_part h)), (frac_part h).
    assert (E : INR (Z.to_nat (Int_part h)) = IZR (Int_part h)) by (rewrite INR_IZR_INZ, Z2Nat.id; auto).
    split; [|split; [|split]].
    - apply INR_lt. rewrite E. replace m with (S (m - 1)) by lia. rewrite S_INR. lra.
    - unfold frac_part. lra.
    - rewrite E. unfold frac_part. lra.
    - reflexivity.
  Qed.

  Lemma quantile_mono q1 q2 : 0 <= q1 -> q1 <= q2 -> q2 <= 1 -> quantile l q1 <= quantile l q2.
  Proof.
    intros H1 H12 H2. pose proof q_len as Hm.
    destruct (q_idx q1) as (i1 & t1 & Hi1 & Ht1 & E1 & ->); [lra|].
    destruct (q_idx q2) as (i2 & t2 & Hi2 & Ht2 & E2 & ->); [lra|].
    assert (Hle : INR i1 + t1 <= INR i2 + t2).
    { rewrite <- E1, <- E2. apply Rmult_le_compat_r; auto. apply pos_INR. }
    destruct (Nat.lt_trichotomy i1 i2) as [C|[C|C]].
    - assert (v (Nat.min (S i1) (m - 1)) <= v i2) by (apply v_mono; lia).
      assert (v i1 <= v (Nat.min (S i1) (m - 1))) by (apply v_mono; lia).
      assert (v i2 <= v (Nat.min (S i2) (m - 1))) by (apply v_mono; lia).
      nra.
    - subst i2. assert (v i1 <= v (Nat.min (S i1) (m - 1))) by (apply v_mono; lia). nra.
    - exfalso. apply le_INR in C. rewrite S_INR in C. lra.
  Qed.

  Lemma quantile_bounds q lo hi : 0 <= q <= 1 -> (forall x, In x l -> lo <= x <= hi) ->
    lo <= quantile l q <= hi.
  Proof.
    intros Hq Hb. pose proof q_len as Hm. destruct (q_idx q Hq) as (i & t & Hi & Ht & _ & ->).
    assert (Hv : forall j, (j < m)%nat -> lo <= v j <= hi).
    { intros j Hj. apply Hb. apply (Permutation_in _ (rsort_perm l)). apply nth_In.
      rewrite rsort_length. auto. }
    pose proof (Hv i Hi). assert (v i <= v (Nat.min (S i) (m - 1))) by (apply v_mono; lia).
    pose proof (Hv (Nat.min (S i) (m - 1)) ltac:(lia)). nra.
  Qed.
End Quantile.

Lemma rinsert_map c d x l : 0 < c ->
  rinsert (c * x + d) (map (fun y => c * y + d) l) = map (fun y => c * y + d) (rinsert x l).
Proof.
  intros Hc. induction l; simpl; auto.
  replace (Rleb (c * x + d) (c * a + d)) with (Rleb x a).
  - destruct (Rleb x a); simpl; auto. rewrite IHl; auto.
  - destruct (Rleb x a) eqn:E; symmetry.
    + apply Rleb_true. apply Rleb_true in E. nra.
    + apply Rleb_false. apply Rleb_false in E. nra.
Qed.
Lemma rsort_map c d l : 0 < c -> rsort (map (fun y => c * y + d) l) = map (fun y => c * y + d) (rsort l).
Proof. intros Hc. induction l; simpl; auto. rewrite IHl. apply rinsert_map; auto. Qed.

Lemma quantile_affine c d l q : 0 <= c -> l <> [] -> 0 <= q <= 1 ->
  quantile (map (fun y => c * y + d) l) q = c * quantile l q + d.
Proof.
  intros [Hc|<-] Hl Hq.
  - assert (Hm : (0 < length l)%nat) by (destruct l; [easy|simpl; lia]).
    destruct (q_idx l Hl q Hq) as (i & t & Hi & Ht & E & Eq).
    unfold quantile in *. rewrite map_length, rsort_map by auto. rewrite Eq.
    set (h := q * INR (length l - 1)) in *.
    assert (Ei : Z.to_nat (Int_part h) = i).
    { pose proof (Int_part_spec h). assert (Int_part h = Z.of_nat i).
      { apply Z.le_antisymm; apply Z.lt_succ_r; apply lt_IZR; rewrite succ_IZR;
        rewrite ?INR_IZR_INZ in *; lra. }
      rewrite H0. apply Nat2Z.id. }
    assert (Et : frac_part h = t).
    { unfold frac_part. assert (IZR (Int_part h) = INR i); [|lra].
      rewrite INR_IZR_INZ. f_equal. rewrite <- Ei. rewrite Z2Nat.id; auto. apply Int_part_nonneg.
      rewrite E. pose proof (pos_INR i). lra. }
    rewrite Ei, Et.
    assert (Hn : forall j, (j < length l)%nat ->
               nth j (map (fun y => c * y + d) (rsort l)) 0 = c * nth j (rsort l) 0 + d).
    { intros j Hj. rewrite (nth_indep _ 0 (c * 0 + d)) by (rewrite map_length, rsort_length; auto).
      apply (map_nth (fun y => c * y + d)). }
    rewrite !Hn by lia. ring.
  - assert (Hm : map (fun y => 0 * y + d) l <> []) by (destruct l; easy).
    pose proof (quantile_bounds _ Hm q d d Hq) as H.
    rewrite Rmult_0_l, Rplus_0_l.
    assert (d <= quantile (map (fun y => 0 * y + d) l) q <= d); [|lra].
    apply H. intros x Hx. apply in_map_iff in Hx as (y & <- & _). lra.
Qed.

Lemma all_fin_map l : all_fin (map Fin l) = Some l.
Proof. induction l; simpl; auto. rewrite IHl; auto. Qed.

(** bootstrap replicate means *)
Definition boot_mean (n : nat) (x : nat -> R) (choice : nat -> nat -> nat) (b : nat) : R :=
  avg n (fun j => x (choice b j)).

Lemma boot_samples_ok n x B choice : (0 < n)%nat ->
  (forall b j, (j < n)%nat -> (choice b j < n)%nat) ->
  boot_samples (tabF n x) B choice = map Fin (tab (Z.to_nat B) (boot_mean n x choice)).
Proof.
  intros Hn Hc. unfold boot_samples. unfold tabF at 2. rewrite tab_length. rewrite map_tab. unfold tab.
  apply map_ext. intros b. fold (@tab num n (fun j => nth (choice b j) (tabF n x) NaN)).
  unfold boot_mean. rewrite <- nmean_tabF by auto. f_equal. apply tab_ext. intros j Hj.
  unfold tabF. rewrite nth_tab by auto. reflexivity.
Qed.

Lemma bootstrap_ok n x alpha B choice : (0 < n)%nat ->
  (forall b j, (j < n)%nat -> (choice b j < n)%nat) -> 0 <= alpha <= 1 -> (1 <= B)%Z ->
  let bs := tab (Z.to_nat B) (boot_mean n x choice) in
  estimate_confidence_interval_by_bootstrap (tabF n x) alpha B choice
  = Ok {| ci_mean := Fin (avg (Z.to_nat B) (boot_mean n x choice));
          ci_lower := Fin (quantile bs (alpha / 2)); ci_upper := Fin (quantile bs (1 - alpha / 2)) |}.
Proof.
  intros Hn Hc Ha HB bs. unfold estimate_confidence_interval_by_bootstrap, check_confidence_interval_arguments,
    check_scalar, check_scalar_Z. simpl nlt.
  replace (Rltb alpha 0) with false by (symmetry; apply Rltb_false; lra).
  replace (Rltb 1 alpha) with false by (symmetry; apply Rltb_false; lra).
  replace (B <? 1)%Z with false by (symmetry; apply Z.ltb_ge; lia). cbn [raise_if bind].
  rewrite boot_samples_ok by auto. fold bs. unfold npercentile. rewrite all_fin_map.
  f_equal. f_equal. unfold bs. rewrite map_tab. apply nmean_tabF. lia.
Qed.

Lemma boot_mean_bounds n x choice b lo hi : (0 < n)%nat ->
  (forall b j, (j < n)%nat -> (choice b j < n)%nat) -> bounded_by n x lo hi ->
  lo <= boot_mean n x choice b <= hi.
Proof. intros Hn Hc Hb. apply avg_bounds; auto. intros j Hj. apply Hb; auto. Qed.

Lemma boot_mean_affine n x choice b c d : (0 < n)%nat ->
  boot_mean n (fun i => c * x i + d) choice b = c * boot_mean n x choice b + d.
Proof.
  intros Hn. unfold boot_mean. rewrite avg_plus, avg_scal, avg_const by auto. reflexivity.
Qed.

(** ** convert_to_action_dist *)

Lemma set_nth_tab {A} n (f : nat -> A) i v : (i < n)%nat ->
  set_nth (tab n f) i v = tab n (fun j => if Nat.eqb j i then v else f j).
Proof.
  revert f i; induction n; intros f i Hi; [lia|]. rewrite !tab_S_first. destruct i; simpl.
  - f_equal. 
  - f_equal. apply IHn. lia.
Qed.

Lemma repeat_tab {A} n (x : A) : repeat x n = tab n (fun _ => x).
Proof. induction n; auto. rewrite tab_S_first. simpl. f_equal; auto. Qed.

Lemma np_index_nat n i : (i < n)%nat -> np_index n (Z.of_nat i) = Ok i.
Proof.
  intros H. unfold np_index. replace (Z.of_nat i <? 0)%Z with false by (symmetry; apply Z.ltb_ge; lia).
  replace (0 <=? Z.of_nat i)%Z with true by (symmetry; apply Z.leb_le; lia).
  replace (Z.of_nat i <? Z.of_nat n)%Z with true by (symmetry; apply Z.ltb_lt; lia).
  simpl. rewrite Nat2Z.id. reflexivity.
Qed.

Lemma convert_round_ok K L sel : (forall p, (p < L)%nat -> (sel p < K)%nat) ->
  convert_round K L (tabZ L sel) = Ok (tab2F K L (fun a p => if Nat.eqb a (sel p) then 1 else 0)).
Proof.
  intros H. unfold convert_round.
  assert (G : forall m, (m <= L)%nat ->
    fold_left (fun acc pos => row <- acc ;; a <- np_get (tabZ L sel) (Z.of_nat pos) ;;
       i <- np_index K a ;; Ok (set_nth row i (set_nth (nth i row []) pos (Fin 1))))
      (seq 0 m) (Ok (repeat (repeat (Fin 0) L) K))
    = Ok (tab2F K L (fun a p => if Nat.ltb p m then if Nat.eqb a (sel p) then 1 else 0 else 0))).
  { induction m; intros Hm.
    - simpl. f_equal. rewrite repeat_tab. unfold tab2F, tabF. apply tab_ext. intros a Ha.
      rewrite repeat_tab. reflexivity.
    - rewrite seq_S, fold_left_app, IHm by lia. cbn [fold_left bind plus].
      unfold tabZ. rewrite np_get_tab by lia. cbn [bind]. rewrite np_index_nat by (apply H; lia). cbn [bind].
      f_equal. unfold tab2F, tabF. rewrite nth_tab by (apply H; lia).
      rewrite set_nth_tab by (apply H; lia). rewrite set_nth_tab by lia.
      apply tab_ext. intros a Ha. destruct (Nat.eqb_spec a (sel m)).
      + apply tab_ext. intros p Hp. destruct (Nat.eqb_spec p m).
        * subst. rewrite (proj2 (Nat.ltb_lt m (S m))) by lia. rewrite Nat.eqb_refl. reflexivity.
        * destruct (Nat.ltb_spec p m), (Nat.ltb_spec p (S m)); try lia; subst; reflexivity.
      + apply tab_ext. intros p Hp.
        destruct (Nat.ltb_spec p m), (Nat.ltb_spec p (S m)); try lia; auto.
        assert (p = m) by lia. subst. apply Nat.eqb_neq in n. rewrite n. reflexivity. }
  rewrite G by lia. f_equal. unfold tab2F, tabF. apply tab_ext. intros a Ha. apply tab_ext. intros p Hp.
  apply Nat.ltb_lt in Hp. rewrite Hp. reflexivity.
Qed.

Lemma convert_ok n K L sel : (forall i p, (i < n)%nat -> (p < L)%nat -> (sel i p < K)%nat) ->
  convert_to_action_dist K L (tab n (fun i => tabZ L (sel i)))
  = Ok (tab3F n K L (fun i a p => if Nat.eqb a (sel i p) then 1 else 0)).
Proof.
  intros H. unfold convert_to_action_dist, tab3F. apply mapM_tab. intros i Hi. apply convert_round_ok.
  intros; apply H; auto.
Qed.

(** ** check_ope_inputs *)

Lemma zminl_le l m z : zminl l = Ok m -> In z l -> (m <= z)%Z.
Proof.
  destruct l as [|x r]; [easy|]. simpl. intros E. injection E as <-. revert x.
  assert (G : forall r x, (fold_left Z.min r x <= x)%Z).
  { clear. induction r; simpl; intros; [lia|]. eapply Z.le_trans; [apply IHr|]. lia. }
  induction r as [|y r IH]; simpl; intros x [H|H]; try easy.
  - subst; lia.
  - subst. eapply Z.le_trans; [apply G|]. lia.
  - destruct H as [H|H]. subst; eapply Z.le_trans; [apply G|]; lia. apply IH; right; auto.
Qed.
Lemma zmaxl_ge l m z : zmaxl l = Ok m -> In z l -> (z <= m)%Z.
Proof.
  destruct l as [|x r]; [easy|]. simpl. intros E. injection E as <-. revert x.
  assert (G : forall r x, (x <= fold_left Z.max r x)%Z).
  { clear. induction r; simpl; intros; [lia|]. eapply Z.le_trans; [|apply IHr]. lia. }
  induction r as [|y r IH]; simpl; intros x [H|H]; try easy.
  - subst; lia.
  - subst. eapply Z.le_trans; [|apply G]. lia.
  - destruct H as [H|H]. subst; eapply Z.le_trans; [|apply G]; lia. apply IH; right; auto.
Qed.
Lemma zminl_nil l m : zminl l = Ok m -> l <> [].
Proof. destruct l; easy. Qed.

Lemma dim1_tab3' n K L (f : nat -> nat -> nat -> num) : (0 < n)%nat -> dim1 (tab3 n K L f) = K.
Proof. intros. destruct n; [lia|]. unfold tab3. rewrite tab_S_first. simpl. apply tab_length. Qed.
Lemma dim2_tab3' n K L f : (0 < n)%nat -> (0 < K)%nat -> dim2 (tab3 n K L f) = L.
Proof.
  intros. destruct n; [lia|]. destruct K; [lia|]. unfold tab3, dim2. rewrite tab_S_first, tab_S_first.
  apply tab_length.
Qed.
Lemma sum_axis1_tab3 n K L f : (0 < n)%nat -> (0 < K)%nat ->
  sum_axis1 (tab3 n K L f) = tab n (fun i => tab L (fun s => nsum (tab K (fun a => f i a s)))).
Proof.
  intros Hn HK. unfold sum_axis1. rewrite dim2_tab3' by auto. unfold tab3. rewrite map_tab.
  apply tab_ext. intros i Hi. apply tab_ext. intros s Hs. f_equal. rewrite map_tab. apply tab_ext. intros a Ha.
  unfold nth_num. apply nth_tab; auto.
Qed.

Lemma isclose1_inv x : isclose1 x = true -> exists v, x = Fin v /\ Rabs (v - 1) <= tol.
Proof.
  destruct x; simpl; try easy. intros H. apply Rleb_true in H. exists r. split; auto. unfold tol. lra.
Qed.

Lemma raise_if_inv b e : raise_if b e = Ok tt -> b = false.
Proof. destruct b; easy. Qed.

Lemma check_sound n K L pi position action reward pscore q_hat eiw :
  (0 < n)%nat -> (0 < K)%nat ->
  check_ope_inputs (tab3 n K L pi) position action reward pscore q_hat eiw = Ok tt ->
  (forall i s, (i < n)%nat -> (s < L)%nat ->
     exists v, nsum (tab K (fun a => pi i a s)) = Fin v /\ Rabs (v - 1) <= tol) /\
  (forall p, position = Some p ->
     length p = n /\ forall z, In z p -> (0 <= z < Z.of_nat L)%Z) /\
  ((1 < L)%nat -> position <> None) /\
  (forall a, action = Some a ->
     exists r, reward = Some r /\ length r = length a /\ a <> [] /\
               forall z, In z a -> (0 <= z < Z.of_nat K)%Z) /\
  (action = None -> reward = None) /\
  (forall p, pscore = Some p ->
     exists a, action = Some a /\ length p = length a /\ forall x, In x p -> nle x (Fin 0) = false) /\
  (forall q, q_hat = Some q -> shape3 q = (n, K, L)) /\
  (forall w, eiw = Some w ->
     exists a, action = Some a /\ length w = length a /\ forall x, In x w -> nlt x (Fin 0) = false).
Proof.
  intros Hn HK H. unfold check_ope_inputs in H.
  rewrite dim1_tab3', dim2_tab3' in H by auto.
  assert (Hlen : length (tab3 n K L pi) = n) by apply tab_length. rewrite Hlen in H.
  apply bind_Ok in H as (u1 & H1 & H). destruct u1.
  apply bind_Ok in H as (u2 & H2 & H). destruct u2.
  apply bind_Ok in H as (u3 & H3 & H). destruct u3.
  apply bind_Ok in H as (u4 & H4 & H). destruct u4.
  apply bind_Ok in H as (u5 & H5 & H). destruct u5.
  split; [|split; [|split; [|split; [|split; [|split; [|split]]]]]].
  - apply raise_if_inv in H1. apply negb_false_iff in H1. rewrite sum_axis1_tab3 in H1 by auto.
    intros i s Hi Hs. unfold allclose1 in H1. pose proof (proj1 (forallb_tab _ _ _) H1 i Hi) as H1i.
    pose proof (proj1 (forallb_tab _ _ _) H1i s Hs) as H1s. apply isclose1_inv in H1s. exact H1s.
  - intros p ->.
    apply bind_Ok in H2 as ([] & G1 & H2). apply bind_Ok in H2 as (mn & G2 & H2).
    apply bind_Ok in H2 as ([] & G3 & H2). apply bind_Ok in H2 as (mx & G4 & H2).
    apply raise_if_inv in G1, G3, H2. apply negb_false_iff in G1, G3. apply Nat.eqb_eq in G1.
    split; auto. intros z Hz. pose proof (zminl_le _ _ _ G2 Hz). pose proof (zmaxl_ge _ _ _ G4 Hz).
    apply Z.leb_le in G3. apply Z.leb_gt in H2. lia.
  - intros HL E. subst position. apply raise_if_inv in H2. apply Nat.ltb_ge in H2. lia.
  - intros a ->. destruct reward as [r|]; [|discriminate].
    apply bind_Ok in H5 as ([] & G1 & H5). apply bind_Ok in H5 as (mn & G2 & H5).
    apply bind_Ok in H5 as ([] & G3 & H5). apply bind_Ok in H5 as (mx & G4 & H5).
    apply raise_if_inv in G1, G3, H5. apply negb_false_iff in G1, G3, H5. apply Nat.eqb_eq in G1.
    exists r. split; auto. split; auto. split; [eapply zminl_nil; eauto|].
    intros z Hz. pose proof (zminl_le _ _ _ G2 Hz). pose proof (zmaxl_ge _ _ _ G4 Hz).
    apply Z.leb_le in G3. apply Z.ltb_lt in H5. lia.
  - intros ->. destruct reward; [discriminate|reflexivity].
  - intros p ->. destruct action as [a|]; [|discriminate]. destruct reward as [r|]; [|discriminate].
    apply bind_Ok in H as ([] & G1 & H). apply raise_if_inv in G1, H. apply negb_false_iff in G1.
    apply andb_true_iff in G1 as [G1 G1']. apply Nat.eqb_eq in G1, G1'.
    exists a. split; auto. split; [congruence|]. intros x Hx.
    destruct (nle x (Fin 0)) eqn:E; auto. unfold any_le0 in H.
    assert (existsb (fun x => nle x (Fin 0)) p = true) by (apply existsb_exists; eauto). congruence.
  - intros q ->. apply raise_if_inv in H3. apply negb_false_iff in H3. unfold shape_eqb in H3.
    rewrite dim1_tab3', dim2_tab3', Hlen in H3 by auto.
    apply andb_true_iff in H3 as [H3 G3]. apply andb_true_iff in H3 as [H3 G2].
    apply Nat.eqb_eq in H3, G2, G3. unfold shape3. congruence.
  - intros w ->. destruct action as [a|]; [|discriminate].
    apply bind_Ok in H4 as ([] & G1 & H4). apply raise_if_inv in G1, H4. apply negb_false_iff in G1.
    apply Nat.eqb_eq in G1. exists a. split; auto. split; auto. intros x Hx.
    destruct (nlt x (Fin 0)) eqn:E; auto. unfold any_lt0 in H4.
    assert (existsb (fun x => nlt x (Fin 0)) w = true) by (apply existsb_exists; eauto). congruence.
Qed.

(** Validation of a log with [m] rounds against a policy with [lg_n l] rounds. *)
Lemma check_mismatch l m r a ps : accepted l -> (0 < m)%nat -> lg_L l = 1%nat ->
  (forall i, (i < m)%nat -> (a i < lg_K l)%nat) -> length ps = m -> any_le0 ps = false ->
  check_ope_inputs (policy l) None (Some (tabZ m a)) (Some (tabF m r)) (Some ps) None None = Ok tt.
Proof.
  intros H Hm HL Ha Hlp Hps. unfold check_ope_inputs. rewrite allclose_ok by auto. cbn [negb raise_if bind].
  unfold policy. rewrite dim1_tab3, dim2_tab3 by (try apply acc_K; auto; apply H). rewrite HL. cbn [Nat.ltb Nat.leb raise_if bind].
  unfold tabF at 1. rewrite tab_length. unfold tabZ at 1. rewrite tab_length. rewrite Nat.eqb_refl. cbn [negb raise_if bind].
  destruct (zminl_tab m a Hm) as (z & -> & Hz). cbn [bind].
  replace (0 <=? z)%Z with true by (symmetry; apply Z.leb_le; auto). cbn [negb raise_if bind].
  destruct (zmaxl_tab m a (lg_K l) Hm Ha) as (z' & -> & Hz'). cbn [bind].
  replace (z' <? Z.of_nat (lg_K l))%Z with true by (symmetry; apply Z.ltb_lt; auto). cbn [negb raise_if bind].
  unfold tabF, tabZ. rewrite !tab_length, Hlp, Nat.eqb_refl. cbn [negb raise_if bind andb]. rewrite Hps. reflexivity.
Qed.

Lemma mapM_Err_some {A B} (f : A -> res B) l e :
  (forall x, In x l -> f x = Err e \/ exists y, f x = Ok y) ->
  (exists x, In x l /\ f x = Err e) -> mapM f l = Err e.
Proof.
  induction l as [|a l IH]; simpl; intros H (x & Hx & E); [easy|].
  destruct (H a (or_introl eq_refl)) as [->|(y & Ey)]; [reflexivity|]. rewrite Ey. simpl.
  destruct Hx as [->|Hx]; [congruence|]. rewrite IH; eauto.
Qed.

Lemma weights_num l g : accepted l ->
  importance_weights (policy l) (actions l) (positions l) (tab (lg_n l) g)
  = Ok (tab (lg_n l) (fun i => ndiv (Fin (lg_pi l i (lg_a l i) (lg_pos l i))) (g i))).
Proof.
  intros H. unfold importance_weights. rewrite len_actions. unfold policy, actions, positions.
  rewrite fancy3_tab by (apply H). cbn [bind]. unfold tabF. rewrite bcast2_tab. reflexivity.
Qed.

(** IPW on a log whose number of rounds differs from the policy's. *)
Lemma ipw_one_round l r a p : accepted l -> lg_L l = 1%nat -> (a < lg_K l)%nat -> 0 < p ->
  ipw_value PInf false (tabF 1 (fun _ => r)) (tabZ 1 (fun _ => a)) (policy l)
    (Some (tabF 1 (fun _ => p))) None None
  = Ok (Fin (r * (lg_pi l 0 a 0 / p))).
Proof.
  intros H HL Ha Hp. unfold ipw_value, ipw_like_value, ipw_like_rounds. cbn [choose_pscore bind].
  rewrite check_mismatch; auto.
  2:{ unfold any_le0; simpl. rewrite (proj2 (Rleb_false p 0)) by lra. reflexivity. }
  cbn [bind]. unfold ipw_round, importance_weights, default_position.
  assert (Hn : (0 < lg_n l)%nat) by apply H.
  unfold zzeros. unfold policy at 2. unfold tab3F at 1. rewrite tab_length, repeat_tab.
  change (length (tabZ 1 (fun _ : nat => a))) with 1%nat.
  unfold fancy3. unfold bcast2_idx at 1. unfold tabZ. rewrite arange_tab, bcast2_tab. cbn [bind].
  assert (E : bcast2_idx (tab 1 (fun i => (Z.of_nat i, Z.of_nat a))) (tab (lg_n l) (fun _ => 0%Z))
              = Ok (tab (lg_n l) (fun _ => ((0%Z, Z.of_nat a), 0%Z)))).
  { unfold bcast2_idx, bcast2. rewrite !tab_length. destruct (Nat.eqb_spec 1 (lg_n l)) as [E|E].
    - rewrite <- E. reflexivity.
    - simpl. rewrite map_tab. reflexivity. }
  rewrite E. cbn [bind].
  rewrite (mapM_tab _ _ _ (fun _ => Fin (lg_pi l 0 a 0))).
  2:{ intros i Hi. cbn [fst snd]. unfold policy, tab3F. rewrite (np_get_tab _ _ 0) by auto. cbn [bind].
      unfold tab2F. rewrite np_get_tab by auto. cbn [bind]. unfold tabF. rewrite (np_get_tab _ _ 0) by lia. reflexivity. }
  cbn [bind]. unfold tabF.
  assert (E2 : forall (f : num -> num -> num) n (x : num) (y : num), (0 < n)%nat ->
     bcast2 f (tab n (fun _ => x)) (tab 1 (fun _ => y)) = Ok (tab n (fun _ => f x y))).
  { intros f n x y Hn0. unfold bcast2. rewrite !tab_length. destruct (Nat.eqb_spec n 1) as [->|E2]; [reflexivity|].
    destruct n as [|[|n]]; try lia. cbn. do 3 f_equal. fold (@tab num). rewrite map_map. reflexivity. }
  assert (E3 : forall (f : num -> num -> num) n (x : num) (y : num), (0 < n)%nat ->
     bcast2 f (tab 1 (fun _ => y)) (tab n (fun _ => x)) = Ok (tab n (fun _ => f y x))).
  { intros f n x y Hn0. unfold bcast2. rewrite !tab_length. destruct (Nat.eqb_spec 1 n) as [<-|E3]; [reflexivity|].
    simpl. rewrite map_tab. reflexivity. }
  rewrite E2 by auto. cbn [bind]. rewrite map_tab. rewrite E3 by auto. cbn [bind].
  rewrite ndiv_Fin by lra. rewrite nmin_PInf. cbn [nmul].
  fold (tabF (lg_n l) (fun _ => r * (lg_pi l 0 a 0 / p))). rewrite nmean_tabF, avg_const by auto. reflexivity.
Qed.

Lemma ipw_mismatch_raises l lam m r a p : accepted l -> lg_L l = 1%nat -> (1 < m)%nat -> m <> lg_n l ->
  (forall i, (i < m)%nat -> (a i < lg_K l)%nat) -> (forall i, (i < m)%nat -> 0 < p i) ->
  ipw_value lam false (tabF m r) (tabZ m a) (policy l) (Some (tabF m p)) None None = Err IndexError.
Proof.
  intros H HL Hm Hne Ha Hp. unfold ipw_value, ipw_like_value, ipw_like_rounds. cbn [choose_pscore bind].
  rewrite (check_mismatch l m); auto; try lia.
  2:{ unfold tabF. apply tab_length. }
  2:{ unfold any_le0, tabF. apply existsb_tab_false. intros i Hi. simpl. apply Rleb_false. auto. }
  cbn [bind]. unfold ipw_round, importance_weights, default_position.
  assert (Hn : (0 < lg_n l)%nat) by apply H.
  unfold zzeros. unfold policy at 2. unfold tab3F at 1. rewrite tab_length, repeat_tab.
  unfold tabZ at 1. rewrite tab_length. unfold fancy3. unfold bcast2_idx at 1. unfold tabZ.
  rewrite arange_tab, bcast2_tab. cbn [bind].
  unfold bcast2_idx, bcast2. rewrite !tab_length. rewrite (proj2 (Nat.eqb_neq m (lg_n l))) by auto.
  destruct m as [|[|m]]; try lia. rewrite !tab_S_first.
  destruct (lg_n l) as [|[|n]] eqn:En; try lia.
  - rewrite tab_S_first. cbn [tab seq map bind].
    rewrite (mapM_Err_some _ _ IndexError); auto.
    + intros x Hx.
      assert (Hin : exists i, (i < S (S m))%nat /\ x = ((Z.of_nat i, Z.of_nat (a i)), 0%Z)).
      { destruct Hx as [<-|[<-|Hx]]. exists 0%nat; split; [lia|reflexivity].
        exists 1%nat; split; [lia|reflexivity].
        apply in_map_iff in Hx as (y & <- & Hy). apply In_tab in Hy as (i & Hi & <-).
        exists (S (S i)). split; [lia|reflexivity]. }
      destruct Hin as (i & Hi & ->). cbn [fst snd].
      destruct i as [|i].
      * right. eexists. unfold policy, tab3F. rewrite (np_get_tab _ _ 0) by lia. cbn [bind].
        unfold tab2F. rewrite np_get_tab by (apply Ha; lia). cbn [bind]. unfold tabF.
        rewrite (np_get_tab _ _ 0) by lia. reflexivity.
      * left. unfold policy, tab3F, np_get. rewrite tab_length, En.
        replace (Z.of_nat (S i) <? 0)%Z with false by (symmetry; apply Z.ltb_ge; lia).
        replace (Z.of_nat (S i) <? Z.of_nat 1)%Z with false by (symmetry; apply Z.ltb_ge; lia).
        rewrite andb_false_r. reflexivity.
    + eexists. split. right; left; reflexivity. cbn [fst snd].
      unfold policy, tab3F, np_get. rewrite tab_length, En. reflexivity.
  - cbn. reflexivity.
Qed.

Lemma check_ok_ps l arg ps : accepted l -> position_arg l arg ->
  length ps = lg_n l -> any_le0 ps = false ->
  check_ope_inputs (policy l) arg (Some (actions l)) (Some (rewards l)) (Some ps) None None = Ok tt.
Proof.
  intros H Harg Hlen Hps.
  pose proof (check_ok l arg None None H Harg (or_introl eq_refl) (or_introl eq_refl)) as HC.
  unfold check_ope_inputs in *.
  apply bind_Ok in HC as ([] & E1 & HC). apply bind_Ok in HC as ([] & E2 & HC).
  apply bind_Ok in HC as ([] & E3 & HC). apply bind_Ok in HC as ([] & E4 & HC).
  apply bind_Ok in HC as ([] & E5 & HC).
  rewrite E1. cbn [bind]. rewrite E2. cbn [bind]. rewrite E5. cbn [bind].
  unfold actions, rewards, tabZ, tabF. rewrite !tab_length, Hlen, Nat.eqb_refl. simpl. rewrite Hps. reflexivity.
Qed.
