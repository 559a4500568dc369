(** * P_LinWidth: confidence widths of the linear policies along a history of updates (C161, C162). *)

From Coq Require Import Reals List ZArith Lia Lra Psatz Bool.
From Verif Require Import Num NpList M_Utils M_Slate M_Multi M_Embed M_Policy M_Linear S_Base S_Tuning S_Policy S_Linear
  L_Num L_Base L_Tuning L_Embed L_Policy L_Linear P_Linear.
Import ListNotations.
Open Scope R_scope.

(** Number of rounds of the history in which action [a] was taken at the context [x] (first [d] entries). *)
Definition seen_with (K d : nat) (x : nat -> R) (a : nat) (h : list round) (m : nat) : Prop :=
  exists keep : list round, length keep = m /\
    (forall e, In e keep -> slot K (rd_action e) = a /\ forall i, (i < d)%nat -> rd_x e i = x i) /\
    exists rest, Permutation.Permutation h (keep ++ rest).

Lemma committed_app {A} (B : nat) (h h2 : list A) : (0 < B)%nat -> exists h3, committed B (h ++ h2) = committed B h ++ h3.
Proof.
  intros HB. unfold committed. set (m := (length h / B * B)%nat). set (n := (length (h ++ h2) / B * B)%nat).
  assert (Hmn : (m <= n)%nat).
  { unfold m, n. apply Nat.mul_le_mono_r, Nat.div_le_mono; [lia|]. rewrite app_length. lia. }
  assert (Hm : (m <= length h)%nat).
  { unfold m. rewrite Nat.mul_comm. apply Nat.mul_div_le. lia. }
  exists (skipn m (firstn n (h ++ h2))).
  rewrite <- (firstn_skipn m (firstn n (h ++ h2))) at 1. f_equal. rewrite firstn_firstn.
  rewrite Nat.min_l by auto. rewrite firstn_app. replace (m - length h)%nat with 0%nat by lia. simpl. apply app_nil_r.
Qed.

Lemma disc a b c : (forall t, 0 <= a + 2 * t * b + t ^ 2 * c) -> 0 <= c -> b ^ 2 <= a * c.
Proof.
  intros H [Hc|<-].
  - specialize (H (- b / c)). replace (a + 2 * (- b / c) * b + (- b / c) ^ 2 * c) with ((a * c - b ^ 2) / c) in H by (field; lra).
    apply (Rmult_le_compat_r c) in H; [|lra]. unfold Rdiv in H. rewrite Rmult_assoc, Rinv_l in H by lra. lra.
  - destruct (Req_dec b 0) as [->|Hb]. specialize (H 0). lra.
    specialize (H (- (a + 1) / (2 * b))).
    replace (a + 2 * (- (a + 1) / (2 * b)) * b + (- (a + 1) / (2 * b)) ^ 2 * 0) with (-1) in H by (field; auto). lra.
Qed.

(** The Gram form. *)
Definition gf (K d : nat) (h : list round) (a : nat) (u v : nat -> R) : R :=
  dot d u v + lsum K h a (fun e => dot d u (rd_x e) * dot d v (rd_x e)).

Lemma gf_bil K d h a u v : dot d u (mvec d (gram K h a) v) = gf K d h a u v.
Proof. rewrite bil_gram. unfold gf. f_equal. apply lsum_ext. intros e. rewrite (dot_sym d (rd_x e)). reflexivity. Qed.
Lemma gf_nonneg K d h a u : 0 <= gf K d h a u u.
Proof. unfold gf. apply Rplus_le_le_0_compat. apply dot_self_nonneg. apply lsum_nonneg. intros. apply Rle_0_sqr. Qed.
Lemma dot_lin d u v w t : dot d (fun i => u i + t * v i) w = dot d u w + t * dot d v w.
Proof. unfold dot. rewrite <- sumn_scal, <- sumn_plus. apply sumn_ext. intros. ring. Qed.
Lemma dot_lin_r d u v w t : dot d w (fun i => u i + t * v i) = dot d w u + t * dot d w v.
Proof. rewrite dot_sym, dot_lin, (dot_sym d u), (dot_sym d v). reflexivity. Qed.
Lemma gf_expand K d h a u v t :
  gf K d h a (fun i => u i + t * v i) (fun i => u i + t * v i) =
  gf K d h a u u + 2 * t * gf K d h a u v + t ^ 2 * gf K d h a v v.
Proof.
  unfold gf. rewrite dot_lin, !dot_lin_r, (dot_sym d v u).
  rewrite (lsum_ext K h a _ (fun e => dot d u (rd_x e) * dot d u (rd_x e) + (2 * t * (dot d u (rd_x e) * dot d v (rd_x e))
    + t ^ 2 * (dot d v (rd_x e) * dot d v (rd_x e))))).
  2:{ intros e. rewrite dot_lin. ring. }
  rewrite !lsum_plus, !lsum_scal. ring.
Qed.
Lemma gf_cs K d h a u v : gf K d h a u v ^ 2 <= gf K d h a u u * gf K d h a v v.
Proof. apply disc. intros t. rewrite <- gf_expand. apply gf_nonneg. apply gf_nonneg. Qed.
Lemma dot_cs d u v : dot d u v ^ 2 <= dot d u u * dot d v v.
Proof.
  apply disc; [|apply dot_self_nonneg]. intros t. pose proof (dot_self_nonneg d (fun i => u i + t * v i)) as H.
  rewrite dot_lin, !dot_lin_r, (dot_sym d v u) in H. lra.
Qed.

Section W.
  Variables (K d : nat) (h : list round) (a : nat) (B : nat -> nat -> R).
  Hypothesis HI : is_inverse d (gram K h a) B.
  Let HB : forall i j, (i < d)%nat -> (j < d)%nat -> sumn d (fun k => gram K h a i k * B k j) = delta i j.
  Proof. intros i j Hi Hj. apply (HI i j Hi Hj). Qed.

  Lemma gf_inv u x : gf K d h a u (mvec d B x) = dot d u x.
  Proof. rewrite <- gf_bil. apply sumn_ext. intros i Hi. rewrite (gram_B K d h a B HB) by auto. reflexivity. Qed.
  Lemma quad_gf x : dot d x (mvec d B x) = gf K d h a (mvec d B x) (mvec d B x).
  Proof. rewrite gf_inv. apply dot_sym. Qed.
  Lemma gf_sym u v : gf K d h a u v = gf K d h a v u.
  Proof. unfold gf. rewrite dot_sym. f_equal. apply lsum_ext. intros. ring. Qed.
End W.

Lemma gf_app K d h h3 a u : gf K d (h ++ h3) a u u = gf K d h a u u + lsum K h3 a (fun e => dot d u (rd_x e) * dot d u (rd_x e)).
Proof. unfold gf. rewrite lsum_app. ring. Qed.

Lemma width_shrinks K d h h3 a M M' x :
  is_inverse d (gram K h a) M -> is_inverse d (gram K (h ++ h3) a) M' ->
  dot d x (mvec d M' x) <= dot d x (mvec d M x).
Proof.
  intros H H'. set (v := mvec d M x). set (v' := mvec d M' x).
  assert (E1 : dot d x v = gf K d h a v v) by (apply (quad_gf K d h a M H)).
  assert (E2 : dot d x v' = gf K d (h ++ h3) a v' v') by (apply (quad_gf K d (h ++ h3) a M' H')).
  assert (E3 : gf K d h a v v' = dot d x v').
  { rewrite gf_sym. unfold v. rewrite (gf_inv K d h a M H). apply dot_sym. }
  pose proof (gf_nonneg K d h a (fun i => v i + (-1) * v' i)) as G. rewrite gf_expand, E3 in G.
  rewrite gf_app in E2. assert (0 <= lsum K h3 a (fun e => dot d v' (rd_x e) * dot d v' (rd_x e))).
  { apply lsum_nonneg. intros. apply Rle_0_sqr. }
  fold v v'. lra.
Qed.

Lemma width_le_norm K d h a M x : is_inverse d (gram K h a) M -> dot d x (mvec d M x) <= dot d x x.
Proof.
  intros H. set (v := mvec d M x).
  assert (E1 : dot d x v = gf K d h a v v) by (apply (quad_gf K d h a M H)).
  pose proof (dot_self_nonneg d (fun i => x i + (-1) * v i)) as G. rewrite dot_lin, !dot_lin_r, (dot_sym d v x) in G.
  unfold gf in E1. assert (0 <= lsum K h a (fun e => dot d v (rd_x e) * dot d v (rd_x e))).
  { apply lsum_nonneg. intros. apply Rle_0_sqr. }
  fold v. lra.
Qed.

Lemma lsum_perm K a f h h' : Permutation.Permutation h h' -> lsum K h a f = lsum K h' a f.
Proof. intros H. induction H; simpl; lra. Qed.

Lemma lsum_seen K d x a f h m : (forall e, 0 <= f e) -> (forall e, (forall i, (i < d)%nat -> rd_x e i = x i) -> f e = f (mkRound 0 0 x)) ->
  seen_with K d x a h m -> INR m * f (mkRound 0 0 x) <= lsum K h a f.
Proof.
  intros Hf Hx (keep & Hm & Hk & rest & HP). rewrite (lsum_perm K a f _ _ HP), lsum_app. clear HP. subst m.
  assert (0 <= lsum K rest a f) by (apply lsum_nonneg; auto).
  assert (lsum K keep a f = INR (length keep) * f (mkRound 0 0 x)); [|lra]. clear H. revert Hk.
  induction keep as [|e keep IH]; intros Hk. simpl. ring.
  cbn [lsum length]. rewrite IH by (intros e' He'; apply Hk; right; auto).
  destruct (Hk e (or_introl eq_refl)) as [Hs He]. rewrite Hs, Nat.eqb_refl, (Hx e He), S_INR. ring.
Qed.

Lemma dot_ext_r d u x y : (forall i, (i < d)%nat -> x i = y i) -> dot d u x = dot d u y.
Proof. intros H. apply sumn_ext. intros i Hi. rewrite H by auto. reflexivity. Qed.

Lemma width_repeated K d h a M x m : is_inverse d (gram K h a) M -> seen_with K d x a h m ->
  dot d x (mvec d M x) * (1 + INR m * dot d x x) <= dot d x x.
Proof.
  intros H Hm. set (v := mvec d M x).
  assert (E1 : dot d x v = gf K d h a v v) by (apply (quad_gf K d h a M H)).
  pose proof (gf_nonneg K d h a v) as Hq. rewrite <- E1 in Hq.
  pose proof (dot_self_nonneg d x) as Hxx. pose proof (pos_INR m) as HM.
  pose proof (dot_cs d x v) as CS.
  assert (HL : INR m * (dot d v x * dot d v x) <= lsum K h a (fun e => dot d v (rd_x e) * dot d v (rd_x e))).
  { apply (lsum_seen K d x a (fun e => dot d v (rd_x e) * dot d v (rd_x e)) h m); auto. intros. apply Rle_0_sqr.
    intros e He. cbn beta. rewrite (dot_ext_r d v (rd_x e) x) by auto. reflexivity. }
  rewrite (dot_sym d v x) in HL. unfold gf in E1. fold v. set (q := dot d x v) in *. set (n := dot d x x) in *.
  set (vv := dot d v v) in *.
  assert (A1 : vv + INR m * (q * q) <= q) by lra.
  destruct Hq as [Hq|Hq]; [|rewrite <- Hq; lra].
  apply (Rmult_le_reg_l q); auto.
  assert (A2 : n * (vv + INR m * (q * q)) <= n * q) by (apply Rmult_le_compat_l; auto).
  nra.
Qed.

(** The stored matrices of the policy after a history, and what LinUCB computes from them. *)
Lemma stored d K L B p0 h : lin_post_init (Z.of_nat d) (Z.of_nat K) (Z.of_nat L) (Z.of_nat B) = Ok p0 ->
  (forall e, In e h -> valid_action K (rd_action e)) ->
  exists M, ln_A_inv (lin_updates d p0 h) = tab3F K d d M /\
    forall a, (a < K)%nat -> is_inverse d (gram K (committed B h) a) (M a).
Proof.
  intros H0 Hv. destruct (C71_inverse_of_committed_rounds d K L B p0 h H0 Hv) as (M & E & HM & _).
  exists M. split; auto. intros a Ha. apply HM; auto.
Qed.

Lemma init_pos d K L B p0 : lin_post_init (Z.of_nat d) (Z.of_nat K) (Z.of_nat L) (Z.of_nat B) = Ok p0 ->
  (0 < d)%nat /\ (0 < K)%nat /\ (0 < L)%nat /\ (0 < B)%nat.
Proof. intros H0. apply lin_post_init_inv in H0 as (H1 & H2 & H3 & H4 & _). lia. Qed.

(** ** C161 *)

(** The squared confidence width x^T A^-1 x of every action at every context starts at most at |x|^2, never
    increases when further rounds are recorded, and never becomes negative. *)
Theorem C161_widths_never_grow d K L B p0 h h2 :
  lin_post_init (Z.of_nat d) (Z.of_nat K) (Z.of_nat L) (Z.of_nat B) = Ok p0 ->
  (forall e, In e (h ++ h2) -> valid_action K (rd_action e)) ->
  exists before after,
    ln_A_inv (lin_updates d p0 h) = tab3F K d d before /\
    ln_A_inv (lin_updates d p0 (h ++ h2)) = tab3F K d d after /\
    forall a x, (a < K)%nat ->
      0 <= dot d x (mvec d (after a) x) /\
      dot d x (mvec d (after a) x) <= dot d x (mvec d (before a) x) /\
      dot d x (mvec d (before a) x) <= dot d x x.
Proof.
  intros H0 Hv. destruct (stored d K L B p0 h H0) as (M & E & HM). { intros e He. apply Hv, in_or_app; auto. }
  destruct (stored d K L B p0 (h ++ h2) H0 Hv) as (M' & E' & HM'). exists M, M'. split; [auto|split; [auto|]].
  intros a x Ha. destruct (init_pos d K L B p0 H0) as (_ & _ & _ & HB).
  destruct (committed_app B h h2 HB) as [h3 E3]. rewrite E3 in HM'. split; [|split].
  - rewrite (quad_gf K d _ a (M' a) (HM' a Ha)). apply gf_nonneg.
  - apply (width_shrinks K d (committed B h) h3 a); auto.
  - apply (width_le_norm K d (committed B h) a); auto.
Qed.

(** Once an action has been committed m times at the context x, its squared width there is at most
    |x|^2 / (1 + m |x|^2), whatever else was recorded; in particular it tends to zero. *)
Theorem C161_width_at_repeated_context d K L B p0 h x a m :
  lin_post_init (Z.of_nat d) (Z.of_nat K) (Z.of_nat L) (Z.of_nat B) = Ok p0 ->
  (forall e, In e h -> valid_action K (rd_action e)) ->
  (a < K)%nat -> seen_with K d x a (committed B h) m ->
  exists M, ln_A_inv (lin_updates d p0 h) = tab3F K d d M /\
    dot d x (mvec d (M a) x) <= dot d x x / (1 + INR m * dot d x x) /\
    INR m * dot d x (mvec d (M a) x) <= 1.
Proof.
  intros H0 Hv Ha Hm. destruct (stored d K L B p0 h H0 Hv) as (M & E & HM). exists M. split; [auto|].
  pose proof (width_repeated K d _ a (M a) x m (HM a Ha) Hm) as W.
  pose proof (dot_self_nonneg d x) as Hn. pose proof (pos_INR m) as HI.
  assert (Hq : 0 <= dot d x (mvec d (M a) x)) by (rewrite (quad_gf K d _ a (M a) (HM a Ha)); apply gf_nonneg).
  assert (HD : 0 < 1 + INR m * dot d x x) by nra. split.
  - apply (Rmult_le_reg_r (1 + INR m * dot d x x)); auto. unfold Rdiv. rewrite Rmult_assoc, Rinv_l by lra. lra.
  - set (q := dot d x (mvec d (M a) x)) in *. set (n := dot d x x) in *.
    destruct Hn as [Hn|Hn].
    + apply (Rmult_le_reg_r n); auto. nra.
    + rewrite <- Hn in *. assert (q = 0) by lra. rewrite H. lra.
Qed.

(** Rounds of other actions leave an action's widths and its ridge prediction exactly as they were. *)
Theorem C161_actions_do_not_interfere d K L B p0 h h2 a :
  lin_post_init (Z.of_nat d) (Z.of_nat K) (Z.of_nat L) (Z.of_nat B) = Ok p0 ->
  (forall e, In e (h ++ h2) -> valid_action K (rd_action e)) ->
  (length h mod B = 0)%nat -> (a < K)%nat ->
  (forall e, In e h2 -> slot K (rd_action e) <> a) ->
  exists before after bb ba,
    ln_A_inv (lin_updates d p0 h) = tab3F K d d before /\
    ln_A_inv (lin_updates d p0 (h ++ h2)) = tab3F K d d after /\
    ln_b (lin_updates d p0 h) = tab2F d K bb /\
    ln_b (lin_updates d p0 (h ++ h2)) = tab2F d K ba /\
    forall i, (i < d)%nat -> bb i a = ba i a /\ forall j, (j < d)%nat -> before a i j = after a i j.
Proof.
  intros H0 Hv Hmod Ha Hno.
  destruct (C71_inverse_of_committed_rounds d K L B p0 h H0) as (M & E & HM & Eb). { intros e He. apply Hv, in_or_app; auto. }
  destruct (C71_inverse_of_committed_rounds d K L B p0 (h ++ h2) H0 Hv) as (M' & E' & HM' & Eb').
  exists M, M', (fun i a => moment K (committed B h) a i), (fun i a => moment K (committed B (h ++ h2)) a i).
  repeat (split; [assumption|]). destruct (init_pos d K L B p0 H0) as (_ & _ & _ & HB).
  assert (E1 : committed B h = h).
  { unfold committed. rewrite Nat.mul_comm. replace (B * (length h / B))%nat with (length h). apply firstn_all.
    pose proof (Nat.div_mod (length h) B ltac:(lia)). lia. }
  assert (E2 : exists k, committed B (h ++ h2) = h ++ firstn k h2).
  { unfold committed. rewrite firstn_app. assert (length h <= length (h ++ h2) / B * B)%nat.
    { rewrite <- E1 at 1. unfold committed. rewrite firstn_length.
      assert (length h / B <= length (h ++ h2) / B)%nat by (apply Nat.div_le_mono; [lia|rewrite app_length; lia]).
      assert (length h / B * B <= length (h ++ h2) / B * B)%nat by (apply Nat.mul_le_mono_r; auto). lia. }
    rewrite firstn_all2 by lia. eauto. }
  destruct E2 as [k E2].
  assert (HL : forall f, lsum K (committed B (h ++ h2)) a f = lsum K h a f).
  { intros f. rewrite E2, lsum_app. assert (Z : lsum K (firstn k h2) a f = 0); [|lra].
    assert (forall e, In e (firstn k h2) -> slot K (rd_action e) <> a).
    { intros e He. apply Hno. rewrite <- (firstn_skipn k h2). apply in_or_app; auto. }
    clear -H. induction (firstn k h2) as [|e t IH]; simpl; auto. rewrite IH by (intros; apply H; right; auto).
    destruct (Nat.eqb_spec (slot K (rd_action e)) a). exfalso. apply (H e); auto. left; auto. ring. }
  intros i Hi. split. { unfold moment. rewrite HL, E1. reflexivity. }
  intros j Hj. destruct (HM a Ha) as (I1 & _). destruct (HM' a Ha) as (I2 & _). rewrite E1 in I1.
  (* M = M A M' = M' *)
  transitivity (sumn d (fun k0 => M a i k0 * sumn d (fun l => gram K h a k0 l * M' a l j))).
  - rewrite (sumn_ext d _ (fun k0 => delta j k0 * M a i k0)). rewrite sumn_delta by auto. reflexivity.
    intros k0 Hk0. destruct (I2 k0 j Hk0 Hj) as [I3 _]. rewrite (sumn_ext d _ (fun l => gram K (committed B (h ++ h2)) a k0 l * M' a l j)).
    rewrite I3, delta_sym. ring. intros l Hl. unfold gram. rewrite HL. reflexivity.
  - rewrite (sumn_ext d _ (fun k0 => sumn d (fun l => M a i k0 * gram K h a k0 l * M' a l j))).
    2:{ intros k0 Hk0. rewrite <- sumn_scal. apply sumn_ext. intros. ring. }
    rewrite sumn_swap. rewrite (sumn_ext d _ (fun l => delta i l * M' a l j)). apply (sumn_delta d (fun l => M' a l j) i Hi).
    intros l Hl. destruct (I1 i l Hi Hl) as [_ I4]. rewrite <- I4. rewrite <- sumn_scal_r. reflexivity.
Qed.

(** ** C162 *)

(** For every parameter vector w, the ridge prediction of an action differs from x.w by at most the width times
    the square root of the excess ridge loss of w. *)
Theorem C162_prediction_error d K L B p0 h :
  lin_post_init (Z.of_nat d) (Z.of_nat K) (Z.of_nat L) (Z.of_nat B) = Ok p0 ->
  (forall e, In e h -> valid_action K (rd_action e)) ->
  let h' := committed B h in
  exists M b theta,
    ln_A_inv (lin_updates d p0 h) = tab3F K d d M /\ ln_b (lin_updates d p0 h) = tab2F d K (fun i a => b a i) /\
    (forall a i, (a < K)%nat -> theta a i = mvec d (M a) (b a) i) /\
    forall a x w, (a < K)%nat ->
      (dot d x (theta a) - dot d x w) ^ 2 <=
        dot d x (mvec d (M a) x) * (ridge_loss K d h' a w - ridge_loss K d h' a (theta a)).
Proof.
  intros H0 Hv h'. destruct (C71_inverse_of_committed_rounds d K L B p0 h H0 Hv) as (M & E & HM & Eb).
  exists M, (moment K h'), (fun a => mvec d (M a) (moment K h' a)). split; [exact E|split; [exact Eb|split; [reflexivity|]]].
  intros a x w Ha. destruct (HM a Ha) as (HI & HS & _).
  assert (HB : forall i j, (i < d)%nat -> (j < d)%nat -> sumn d (fun k => gram K h' a i k * M a k j) = delta i j)
    by (intros i j Hi Hj; apply (HI i j Hi Hj)).
  rewrite (ridge_min K d h' a (M a) HB w).
  set (th := mvec d (M a) (moment K h' a)). set (u := fun i => w i - th i).
  replace (ridge_loss K d h' a th + dot d u (mvec d (gram K h' a) u) - ridge_loss K d h' a th) with (gf K d h' a u u)
    by (rewrite <- gf_bil; ring).
  replace (dot d x th - dot d x w) with (- gf K d h' a u (mvec d (M a) x)).
  - rewrite (quad_gf K d h' a (M a) HI x). pose proof (gf_cs K d h' a u (mvec d (M a) x)). nra.
  - rewrite (gf_inv K d h' a (M a) HI). rewrite (dot_sym d u x). unfold u.
    rewrite (dot_ext_r d x (fun i => w i - th i) (fun i => w i + (-1) * th i)) by (intros; ring).
    rewrite dot_lin_r. ring.
Qed.

(** LinUCB against linear rewards: if epsilon^2 bounds the ridge loss of each action's true parameter w_a (the
    squared noise of its committed rounds plus |w_a|^2), the score of every action is at least its true value
    x.w_a, and the action ranked first loses at most 2 epsilon times its own width against the best action. *)
Theorem C162_linucb_optimism argsort d K L B p0 h epsilon x w :
  (forall xs, is_argsort xs (argsort xs)) ->
  lin_post_init (Z.of_nat d) (Z.of_nat K) (Z.of_nat L) (Z.of_nat B) = Ok p0 ->
  (forall e, In e h -> valid_action K (rd_action e)) ->
  0 <= epsilon ->
  (forall a, (a < K)%nat -> ridge_loss K d (committed B h) a (w a) <= epsilon ^ 2) ->
  exists M l score first,
    ln_A_inv (lin_updates d p0 h) = tab3F K d d M /\
    lin_ucb_select_action argsort (Fin epsilon) (lin_updates d p0 h) [tabF d x] = Ok (first :: l) /\
    (first < K)%nat /\
    best_first K L score (first :: l) /\
    (forall a, (a < K)%nat -> dot d x (w a) <= score a <=
       dot d x (w a) + 2 * epsilon * sqrt (dot d x (mvec d (M a) x))) /\
    forall a, (a < K)%nat ->
      dot d x (w a) <= dot d x (w first) + 2 * epsilon * sqrt (dot d x (mvec d (M first) x)).
Proof.
  intros Hs H0 Hv He Hw. set (h' := committed B h). pose proof (init_pos d K L B p0 H0) as (Hd & HK & HL & HBp).
  apply lin_post_init_inv in H0 as (H1 & H2 & H3 & H4 & Ha). rewrite !Nat2Z.id in Ha.
  assert (Hp : lin_after d K L B h (lin_updates d p0 h)). { apply (lin_updates_after d K L B h ltac:(lia) ltac:(lia) Hv [] p0 Ha). }
  destruct Hp as [a1 a2 a3 _ _ _ (M & E1 & HM) Eb _ _]. fold h' in HM, Eb.
  set (th := fun a => mvec d (M a) (moment K h' a)).
  set (score := fun a => dot d x (th a) + epsilon * sqrt (dot d x (mvec d (M a) x))).
  assert (HP : forall a, (a < K)%nat -> 0 <= dot d x (mvec d (M a) x)).
  { intros a Ha'. apply (quad_nonneg K d h' a). apply HM; auto. }
  assert (Sel : lin_ucb_select_action argsort (Fin epsilon) (lin_updates d p0 h) [tabF d x] = Ok (top_k argsort L (tabF K score))).
  { unfold lin_ucb_select_action, check_context. simpl length. cbn [Nat.eqb negb raise_if bind].
    rewrite (thetas_ok d K _ M (moment K h')) by (auto; lia). cbn [bind].
    rewrite (sigmas_ok d K _ M x) by (auto; try lia; intros; apply HM; auto). cbn [bind].
    rewrite scores_ok by lia. cbn [bind]. unfold tabF at 1 2. rewrite map_tab, bcast2_tab. cbn [bind].
    rewrite a3. reflexivity. }
  assert (BF : best_first K L score (top_k argsort L (tabF K score))) by (apply top_k_best; auto; lia).
  destruct (top_k argsort L (tabF K score)) as [|first l] eqn:El.
  { destruct BF as ((_ & Hlen & _) & _). simpl in Hlen. lia. }
  assert (Opt : forall a, (a < K)%nat -> dot d x (w a) <= score a <= dot d x (w a) + 2 * epsilon * sqrt (dot d x (mvec d (M a) x))).
  { intros a Ha'. destruct (HM a Ha') as [S1 S2].
    assert (HI : is_inverse d (gram K h' a) (M a)) by (apply inv_two_sided; auto).
    assert (PE : (dot d x (th a) - dot d x (w a)) ^ 2 <= dot d x (mvec d (M a) x) * epsilon ^ 2).
    { pose proof (ridge_min K d h' a (M a) S2 (w a)) as RM. cbn zeta in RM. fold (th a) in RM.
      set (u := fun i => w a i - th a i) in *. rewrite gf_bil in RM.
      assert (RL : 0 <= ridge_loss K d h' a (th a)).
      { unfold ridge_loss. apply Rplus_le_le_0_compat. apply lsum_nonneg. intros. apply pow2_ge_0. apply dot_self_nonneg. }
      specialize (Hw a Ha'). fold h' in Hw.
      replace (dot d x (th a) - dot d x (w a)) with (- gf K d h' a u (mvec d (M a) x)).
      - pose proof (gf_cs K d h' a u (mvec d (M a) x)) as CS. rewrite <- (quad_gf K d h' a (M a) HI x) in CS.
        pose proof (HP a Ha'). assert (gf K d h' a u u <= epsilon ^ 2) by lra. nra.
      - rewrite (gf_inv K d h' a (M a) HI). rewrite (dot_sym d u x). unfold u.
        rewrite (dot_ext_r d x (fun i => w a i - th a i) (fun i => w a i + (-1) * th a i)) by (intros; ring).
        rewrite dot_lin_r. ring. }
    set (q := dot d x (mvec d (M a) x)) in *. pose proof (HP a Ha') as Hq. fold q in Hq.
    assert (HA : Rabs (dot d x (th a) - dot d x (w a)) <= epsilon * sqrt q).
    { rewrite <- (Rabs_pos_eq (epsilon * sqrt q)). apply Rsqr_le_abs_0.
      unfold Rsqr. replace (epsilon * sqrt q * (epsilon * sqrt q)) with (epsilon ^ 2 * (sqrt q * sqrt q)) by ring.
      rewrite sqrt_sqrt by auto. lra. apply Rmult_le_pos; auto. apply sqrt_pos. }
    unfold score. fold q.
    pose proof (Rle_abs (dot d x (th a) - dot d x (w a))). pose proof (Rle_abs (- (dot d x (th a) - dot d x (w a)))).
    rewrite Rabs_Ropp in *. lra. }
  assert (Hf : (first < K)%nat). { destruct BF as ((_ & _ & Hin) & _). apply Hin. left; auto. }
  exists M, l, score, first. split; [exact E1|split; [exact Sel|split; [exact Hf|split; [exact BF|split; [exact Opt|]]]]].
  intros a Ha'. apply Rle_trans with (score first); [|apply Opt; auto]. apply Rle_trans with (score a); [apply Opt; auto|].
  destruct BF as ((ND & Hlen & Hin) & Hord & Hout). destruct (in_dec Nat.eq_dec a (first :: l)) as [[->|Hi]|Hi].
  - lra.
  - apply (In_nth l a 0%nat) in Hi as (j & Hj & Ej). specialize (Hord 0%nat (S j)). simpl in Hord, Hlen. rewrite Ej in Hord. apply Hord. lia.
  - apply Hout; auto. left; auto.
Qed.

(** Two actions, two features; action 0 is recorded three times at (1, 2), action 1 once; batches of two. *)
Definition wide_hist : list round :=
  [mkRound 0 1 (fun i => INR i + 1); mkRound 1 0 (fun i => 1); mkRound 0 2 (fun i => INR i + 1); mkRound (-2) 1 (fun i => INR i + 1)].
Lemma wide_hist_valid : forall e, In e wide_hist -> valid_action 2 (rd_action e).
Proof. intros e [<-|[<-|[<-|[<-|[]]]]]; unfold valid_action; simpl; lia. Qed.
Lemma wide_seen : seen_with 2 2 (fun i => INR i + 1) 0 (committed 2 wide_hist) 3.
Proof.
  exists [mkRound 0 1 (fun i => INR i + 1); mkRound 0 2 (fun i => INR i + 1); mkRound (-2) 1 (fun i => INR i + 1)].
  split; [reflexivity|]. split.
  - intros e [<-|[<-|[<-|[]]]]; split; reflexivity.
  - exists [mkRound 1 0 (fun i => 1)]. change (committed 2 wide_hist) with wide_hist. unfold wide_hist.
    apply Permutation.perm_skip. eapply Permutation.perm_trans. apply Permutation.perm_swap. apply Permutation.perm_skip.
    apply Permutation.perm_swap.
Qed.

(** The squared width of action 0 at (1, 2) is then at most 5 / 16. *)
Example C161_repeated_ex : exists p0, lin_post_init 2 2 1 2 = Ok p0 /\
  exists M, ln_A_inv (lin_updates 2 p0 wide_hist) = tab3F 2 2 2 M /\
    dot 2 (fun i => INR i + 1) (mvec 2 (M 0%nat) (fun i => INR i + 1)) <= 5 / 16.
Proof.
  destruct lin_post_init_ex as [p0 H0]. exists p0. split; [exact H0|].
  destruct (C161_width_at_repeated_context 2 2 1 2 p0 wide_hist (fun i => INR i + 1) 0 3 H0 wide_hist_valid ltac:(lia) wide_seen)
    as (M & E & HW & _). exists M. split; [exact E|]. eapply Rle_trans; [exact HW|].
  replace (dot 2 (fun i => INR i + 1) (fun i => INR i + 1)) with 5 by (unfold dot; simpl; ring). simpl. lra.
Qed.

Example C161_never_grow_ex : exists p0, lin_post_init 2 2 1 2 = Ok p0 /\
  exists M M', ln_A_inv (lin_updates 2 p0 ex_hist) = tab3F 2 2 2 M /\
    ln_A_inv (lin_updates 2 p0 (ex_hist ++ wide_hist)) = tab3F 2 2 2 M' /\
    dot 2 (fun _ => 1) (mvec 2 (M' 1%nat) (fun _ => 1)) <= dot 2 (fun _ => 1) (mvec 2 (M 1%nat) (fun _ => 1)) <= 2.
Proof.
  destruct lin_post_init_ex as [p0 H0]. exists p0. split; [exact H0|].
  destruct (C161_widths_never_grow 2 2 1 2 p0 ex_hist wide_hist H0) as (M & M' & E & E' & HW).
  { intros e He. apply in_app_or in He as [He|He]; [apply ex_hist_valid|apply wide_hist_valid]; auto. }
  exists M, M'. split; [exact E|split; [exact E'|]]. destruct (HW 1%nat (fun _ => 1) ltac:(lia)) as (_ & W1 & W2).
  split; [exact W1|]. eapply Rle_trans; [exact W2|]. unfold dot; simpl; lra.
Qed.

Example C161_interfere_ex : exists p0, lin_post_init 2 2 1 2 = Ok p0 /\
  exists M M', ln_A_inv (lin_updates 2 p0 wide_hist) = tab3F 2 2 2 M /\
    ln_A_inv (lin_updates 2 p0 (wide_hist ++ [mkRound 1 1 (fun i => INR i); mkRound (-1) 0 (fun _ => 3)])) = tab3F 2 2 2 M' /\
    M 0%nat 0%nat 1%nat = M' 0%nat 0%nat 1%nat.
Proof.
  destruct lin_post_init_ex as [p0 H0]. exists p0. split; [exact H0|].
  destruct (C161_actions_do_not_interfere 2 2 1 2 p0 wide_hist [mkRound 1 1 (fun i => INR i); mkRound (-1) 0 (fun _ => 3)] 0 H0)
    as (M & M' & b1 & b2 & E & E' & _ & _ & HW).
  - intros e He. apply in_app_or in He as [He|[<-|[<-|[]]]]; [apply wide_hist_valid; auto| |]; unfold valid_action; simpl; lia.
  - reflexivity.
  - lia.
  - intros e [<-|[<-|[]]]; unfold slot; simpl; lia.
  - exists M, M'. split; [exact E|split; [exact E'|]]. apply HW; lia.
Qed.

(** Rewards of [wide_hist] against the true parameters (1/2, 1/4) and (0, 0): epsilon = 2 is enough. *)
Example C162_optimism_ex : exists p0, lin_post_init 2 2 1 2 = Ok p0 /\
  exists l first, lin_ucb_select_action isort (Fin 2) (lin_updates 2 p0 wide_hist) [tabF 2 (fun _ => 1)] = Ok (first :: l).
Proof.
  destruct lin_post_init_ex as [p0 H0]. exists p0. split; [exact H0|].
  destruct (C162_linucb_optimism isort 2 2 1 2 p0 wide_hist 2 (fun _ => 1)
     (fun a i => match a with O => / 2 / (INR i + 1) | _ => 0 end) isort_ok H0 wide_hist_valid) as (M & l & sc & f & _ & E & _).
  - lra.
  - intros a Ha. assert (a = 0 \/ a = 1)%nat as [->| ->] by lia; unfold ridge_loss, dot; simpl; lra.
  - exists l, f. exact E.
Qed.

Example C162_prediction_ex : exists p0, lin_post_init 2 2 1 2 = Ok p0 /\
  exists M, ln_A_inv (lin_updates 2 p0 wide_hist) = tab3F 2 2 2 M.
Proof.
  destruct lin_post_init_ex as [p0 H0]. exists p0. split; [exact H0|].
  destruct (C162_prediction_error 2 2 1 2 p0 wide_hist H0 wide_hist_valid) as (M & _ & _ & E & _). exists M. exact E.
Qed.

Print Assumptions C161_widths_never_grow.
Print Assumptions C161_width_at_repeated_context.
Print Assumptions C161_actions_do_not_interfere.
Print Assumptions C162_prediction_error.
Print Assumptions C162_linucb_optimism.
