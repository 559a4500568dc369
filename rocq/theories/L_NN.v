(** * L_NN: networks and training loops. *)

From Coq Require Import Reals List ZArith Bool Lia Lra Permutation.
From Verif Require Import Num NpList M_Utils M_Feedback M_Cont M_Offline M_Init M_NN S_Base S_Init S_NN L_Num L_Base L_Init L_Act.
Import ListNotations.
Open Scope R_scope.

(** ** Dot products *)
Lemma dotp_sumn : forall n u v, length u = n -> length v = n -> dotp u v = sumn n (fun j => nth j u 0 * nth j v 0).
Proof.
  induction n as [|n IH]; intros u v Hu Hv.
  - destruct u, v; try discriminate. reflexivity.
  - destruct u as [|a u], v as [|b v]; try discriminate. unfold dotp in *. simpl combine. simpl fold_right.
    rewrite (IH u v) by (simpl in *; lia). rewrite sumn_S_first. reflexivity.
Qed.

Definition abs_sum (u : list R) : R := fold_right (fun w acc => Rabs w + acc) 0 u.
Lemma abs_sum_nonneg u : 0 <= abs_sum u.
Proof. induction u; simpl; [lra|]. pose proof (Rabs_pos a). fold (abs_sum u). lra. Qed.

Lemma dotp_bound : forall u v B, 0 <= B -> bounded B v -> Rabs (dotp u v) <= abs_sum u * B.
Proof.
  induction u as [|a u IH]; intros v B HB Hv; unfold dotp in *; simpl.
  - rewrite Rabs_R0. lra.
  - pose proof (Rabs_pos a). pose proof (abs_sum_nonneg u). fold (abs_sum u). destruct v as [|b v]; simpl.
    + rewrite Rabs_R0. assert (0 <= (Rabs a + abs_sum u) * B) by (apply Rmult_le_pos; lra). lra.
    + inversion Hv as [|? ? Hb Hv']; subst. eapply Rle_trans; [apply Rabs_triang|]. rewrite Rabs_mult.
      specialize (IH v B HB Hv'). assert (Rabs a * Rabs b <= Rabs a * B) by (apply Rmult_le_compat_l; auto). lra.
Qed.

Lemma dotp_close : forall u v w D, 0 <= D -> close D v w -> Rabs (dotp u v - dotp u w) <= abs_sum u * D.
Proof.
  induction u as [|a u IH]; intros v w D HD H; unfold dotp in *; simpl.
  - rewrite Rminus_0_r, Rabs_R0. lra.
  - pose proof (Rabs_pos a). pose proof (abs_sum_nonneg u). fold (abs_sum u). inversion H as [|b c v' w' Hb H']; subst; simpl.
    + rewrite Rminus_0_r, Rabs_R0. assert (0 <= (Rabs a + abs_sum u) * D) by (apply Rmult_le_pos; lra). lra.
    + specialize (IH v' w' D HD H').
      set (p := fold_right _ 0 (combine u v')) in *. set (q := fold_right _ 0 (combine u w')) in *.
      replace (a * b + p - (a * c + q)) with (a * (b - c) + (p - q)) by ring.
      eapply Rle_trans; [apply Rabs_triang|]. rewrite Rabs_mult.
      assert (Rabs a * Rabs (b - c) <= Rabs a * D) by (apply Rmult_le_compat_l; auto). lra.
Qed.

(** ** Linear layers *)
Lemma linear_bounded l B : 0 <= B -> exists M, 0 <= M /\ forall x, bounded B x -> bounded M (linear l x).
Proof.
  intros HB. unfold linear. induction (combine (ly_w l) (ly_b l)) as [|[w b] r (M & HM & IH)]; simpl.
  - exists 0. split; [lra|]. intros; constructor.
  - pose proof (abs_sum_nonneg w). pose proof (Rabs_pos b). assert (0 <= abs_sum w * B) by (apply Rmult_le_pos; lra).
    exists (abs_sum w * B + Rabs b + M). split; [lra|]. intros x Hx. constructor.
    + eapply Rle_trans; [apply Rabs_triang|]. pose proof (dotp_bound w x B HB Hx). lra.
    + specialize (IH x Hx). eapply Forall_impl; [|exact IH]. intros v Hv. simpl in Hv. lra.
Qed.

Lemma linear_close l : exists C, 0 <= C /\ forall D x y, 0 <= D -> close D x y -> close (C * D) (linear l x) (linear l y).
Proof.
  unfold linear. induction (combine (ly_w l) (ly_b l)) as [|[w b] r (C & HC & IH)]; simpl.
  - exists 0. split; [lra|]. intros; constructor.
  - pose proof (abs_sum_nonneg w). exists (abs_sum w + C). split; [lra|]. intros D x y HD H'. constructor; simpl.
    + replace (dotp w x + b - (dotp w y + b)) with (dotp w x - dotp w y) by ring.
      pose proof (dotp_close w x y D HD H'). assert (0 <= C * D) by (apply Rmult_le_pos; lra). lra.
    + specialize (IH D x y HD H'). assert (0 <= abs_sum w * D) by (apply Rmult_le_pos; lra).
      revert IH. unfold close. generalize (map (fun q => dotp (fst q) x + snd q) r), (map (fun q => dotp (fst q) y + snd q) r).
      induction 1; constructor; auto. lra.
Qed.

(** ** Activations *)
Lemma logistic_unit x : 0 < act_fun ALogistic x < 1.
Proof.
  simpl. pose proof (exp_pos (- x)). split; [apply Rdiv_lt_0_compat; lra|].
  apply (Rmult_lt_reg_r (1 + exp (- x))); [lra|]. unfold Rdiv. rewrite Rmult_assoc, Rinv_l by lra. lra.
Qed.
Lemma tanh_unit x : -1 < act_fun ATanh x < 1.
Proof.
  simpl. pose proof (exp_pos x). pose proof (exp_pos (- x)).
  assert (E : (exp x - exp (- x)) / (exp x + exp (- x)) * (exp x + exp (- x)) = exp x - exp (- x)) by (field; lra).
  split; apply (Rmult_lt_reg_r (exp x + exp (- x))); try lra; rewrite E; lra.
Qed.


Lemma act_bound a x : Rabs (act_fun a x) <= Rabs x + 1.
Proof.
  pose proof (act_lipschitz a x 0) as H. rewrite Rminus_0_r in H.
  assert (Rabs (act_fun a 0) <= 1).
  { destruct a; simpl.
    - rewrite Rabs_R0. lra.
    - rewrite Ropp_0, exp_0. unfold Rabs; destruct (Rcase_abs _); lra.
    - rewrite Ropp_0, exp_0. unfold Rabs; destruct (Rcase_abs _); lra.
    - replace (Rltb 0 0) with false by (symmetry; apply Rltb_false; lra). rewrite Rabs_R0. lra.
    - replace (Rltb 0 0) with false by (symmetry; apply Rltb_false; lra). rewrite exp_0, Rminus_diag_eq, Rabs_R0 by reflexivity. lra. }
  replace (act_fun a x) with ((act_fun a x - act_fun a 0) + act_fun a 0) by ring.
  eapply Rle_trans; [apply Rabs_triang|]. lra.
Qed.

(** ** Networks *)
Lemma forward_cons a l l' r x : forward a (l :: l' :: r) x = forward a (l' :: r) (map (act_fun a) (linear l x)).
Proof. reflexivity. Qed.

Lemma forward_bounded a : forall layers B, 0 <= B -> exists M, 0 <= M /\ forall x, bounded B x -> bounded M (forward a layers x).
Proof.
  induction layers as [|l [|l' r] IH]; intros B HB.
  - exists B. auto.
  - apply linear_bounded; auto.
  - destruct (linear_bounded l B HB) as (M & HM & H). destruct (IH (M + 1) ltac:(lra)) as (M' & HM' & H'). exists M'. split; auto.
    intros x Hx. rewrite forward_cons. apply H'. unfold bounded. rewrite Forall_map. specialize (H x Hx). eapply Forall_impl; [|exact H].
    intros v Hv. simpl in Hv. eapply Rle_trans; [apply act_bound|]. lra.
Qed.

Lemma forward_bounded_everywhere a l l' r : a = ALogistic \/ a = ATanh -> exists M, 0 <= M /\ forall x, bounded M (forward a (l :: l' :: r) x).
Proof.
  intros Ha. destruct (forward_bounded a (l' :: r) 1 ltac:(lra)) as (M & HM & H). exists M. split; auto. intros x. rewrite forward_cons. apply H.
  unfold bounded. rewrite Forall_map. apply Forall_forall. intros v _.
  destruct Ha as [->| ->]; [pose proof (logistic_unit v)|pose proof (tanh_unit v)]; unfold Rabs; destruct (Rcase_abs _); lra.
Qed.

Lemma forward_close a : forall layers, exists C, 0 <= C /\ forall D x y, 0 <= D -> close D x y -> close (C * D) (forward a layers x) (forward a layers y).
Proof.
  induction layers as [|l [|l' r] IH].
  - exists 1. split; [lra|]. intros D x y HD H. rewrite Rmult_1_l. auto.
  - apply linear_close.
  - destruct (linear_close l) as (C & HC & H). destruct IH as (C' & HC' & H'). exists (C' * C). split; [apply Rmult_le_pos; auto|].
    intros D x y HD Hxy. rewrite !forward_cons, Rmult_assoc. apply H'; [apply Rmult_le_pos; auto|]. specialize (H D x y HD Hxy).
    revert H. unfold close. generalize (linear l x), (linear l y). induction 1; simpl; constructor; auto.
    eapply Rle_trans; [apply act_lipschitz|]. auto.
Qed.

(** ** Shapes *)
Lemma nth_map_lt {A B} (f : A -> B) l i d d' : (i < length l)%nat -> nth i (map f l) d' = f (nth i l d).
Proof. intros H. rewrite (nth_indep _ d' (f d)) by (rewrite map_length; auto). apply map_nth. Qed.

Lemma linear_tab l i o x : length (ly_b l) = o -> length (ly_w l) = o -> Forall (fun row => length row = i) (ly_w l) -> length x = i ->
  linear l x = tab o (fun a => sumn i (fun j => nth j (nth a (ly_w l) []) 0 * nth j x 0) + nth a (ly_b l) 0).
Proof.
  intros Hb Hw Hr Hx. unfold linear. rewrite (list_tab (map _ _) 0). rewrite map_length, combine_length, Hb, Hw, Nat.min_id.
  apply tab_ext. intros a Ha. rewrite (nth_map_lt _ _ a ([], 0)) by (rewrite combine_length; lia).
  rewrite combine_nth by lia. simpl. f_equal. apply dotp_sumn; auto.
  rewrite Forall_forall in Hr. apply Hr, nth_In. lia.
Qed.

Lemma forward_length a : forall hidden d K layers x, (0 <= K)%Z -> Forall (fun h => (0 < h)%Z) hidden ->
  fits (mkArch (chain d hidden K) a true) layers -> length x = Z.to_nat d -> length (forward a layers x) = Z.to_nat K.
Proof.
  intros hidden d K layers x HK. revert d layers x. induction hidden as [|h hidden IH]; intros d layers x Hh Hf Hx; unfold fits in Hf; cbn [ar_layers] in Hf; rewrite <- chain_layers in Hf; cbn [linear_layers] in Hf.
  - inversion Hf as [|l ? ls ? (H1 & H2 & H3) Hn]; subst. inversion Hn; subst. cbn [forward]. rewrite (linear_tab l (Z.to_nat d) (Z.to_nat K)); auto. apply tab_length.
  - inversion Hf as [|l ? ls ? (H1 & H2 & H3) Hn]; subst. inversion Hh; subst.
    destruct ls as [|l' ls]; [destruct hidden; inversion Hn|]. rewrite forward_cons. apply (IH h); auto.
    + unfold fits. cbn [ar_layers]. rewrite <- chain_layers. auto.
    + rewrite map_length, (linear_tab l (Z.to_nat d) (Z.to_nat h)); auto. apply tab_length.
Qed.

Lemma affine_linear l i o : length (ly_b l) = o -> length (ly_w l) = o -> Forall (fun row => length row = i) (ly_w l) -> affine i o (linear l).
Proof.
  intros H1 H2 H3. exists (fun a j => nth j (nth a (ly_w l) []) 0), (fun a => nth a (ly_b l) 0). intros x Hx. apply linear_tab; auto.
Qed.
Lemma affine_comp i m o f g : affine i m f -> affine m o g -> affine i o (fun x => g (f x)).
Proof.
  intros (W & c & Hf) (V & b & Hg). exists (fun a j => sumn m (fun k => V a k * W k j)), (fun a => sumn m (fun k => V a k * c k) + b a).
  intros x Hx. rewrite Hg by (rewrite Hf by auto; apply tab_length). apply tab_ext. intros a Ha. rewrite (Hf x Hx).
  rewrite <- Rplus_assoc. f_equal.
  rewrite (sumn_ext m _ (fun k => sumn i (fun j => V a k * W k j * nth j x 0) + V a k * c k)).
  2:{ intros k Hk. rewrite nth_tab by auto. rewrite Rmult_plus_distr_l. f_equal. rewrite <- sumn_scal. apply sumn_ext. intros; ring. }
  rewrite sumn_plus. f_equal. rewrite sumn_swap. apply sumn_ext. intros j Hj. rewrite <- sumn_scal_r. apply sumn_ext. intros; ring.
Qed.

Lemma forward_affine : forall hidden a d K layers, a = AIdentity \/ hidden = [] -> Forall (fun h => (0 < h)%Z) hidden ->
  fits (mkArch (chain d hidden K) a true) layers -> affine (Z.to_nat d) (Z.to_nat K) (forward a layers).
Proof.
  intros hidden a d K layers Ha. revert d layers. induction hidden as [|h hidden IH]; intros d layers Hh Hf; unfold fits in Hf; cbn [ar_layers] in Hf; rewrite <- chain_layers in Hf; cbn [linear_layers] in Hf.
  - inversion Hf as [|l ? ls ? (H1 & H2 & H3) Hn]; subst. inversion Hn; subst. apply affine_linear; auto.
  - destruct Ha as [->|E]; [|discriminate]. inversion Hf as [|l ? ls ? (H1 & H2 & H3) Hn]; subst. inversion Hh; subst.
    destruct ls as [|l' ls]; [destruct hidden; inversion Hn|].
    assert (Hcomp : affine (Z.to_nat d) (Z.to_nat K) (fun x => forward AIdentity (l' :: ls) (linear l x))).
    { apply (affine_comp _ (Z.to_nat h)); [apply affine_linear; auto|]. apply IH; auto. unfold fits. cbn [ar_layers]. rewrite <- chain_layers. auto. }
    destruct Hcomp as (W & c & Hc). exists W, c. intros x Hx. rewrite forward_cons.
    replace (map (act_fun AIdentity) (linear l x)) with (linear l x) by (symmetry; apply map_id). auto.
Qed.

Lemma softmax_tab K y : length y = K -> softmax_row y = tab K (fun a => exp (nth a y 0) / sumn K (fun b => exp (nth b y 0))).
Proof.
  intros H. unfold softmax_row.
  assert (Hs : forall l, fold_right Rplus 0 (map exp l) = sumn (length l) (fun b => exp (nth b l 0))).
  { induction l as [|v l IH]; auto. simpl length. rewrite sumn_S_first. simpl. rewrite IH. reflexivity. }
  rewrite Hs, H. rewrite (list_tab (map _ y) 0), map_length, H. apply tab_ext. intros a Ha.
  rewrite (nth_map_lt _ _ a 0) by lia. reflexivity.
Qed.

(** ** The policy a network plays *)
Definition net_prob (act : activation) (layers : list layer) (K : nat) (x : list R) (a : nat) : R :=
  exp (nth a (forward act layers x) 0) / sumn K (fun b => exp (nth b (forward act layers x) 0)).

Lemma net_row act hidden d K layers x : (0 < K)%Z -> Forall (fun h => (0 < h)%Z) hidden ->
  fits (mkArch (chain d hidden K) act true) layers -> length x = Z.to_nat d ->
  network (mkArch (chain d hidden K) act true) layers x = tab (Z.to_nat K) (net_prob act layers (Z.to_nat K) x).
Proof.
  intros HK Hh Hf Hx. unfold network. cbn [ar_act ar_softmax]. rewrite (softmax_tab (Z.to_nat K)); auto.
  apply (forward_length act hidden d K); auto. lia.
Qed.

Lemma sum_exp_pos K y : (0 < K)%nat -> 0 < sumn K (fun b => exp (nth b y 0)).
Proof. intros H. apply sumn_allpos; auto. intros. apply exp_pos. Qed.

Lemma net_prob_pos act layers K x a : (0 < K)%nat -> 0 < net_prob act layers K x a.
Proof. intros H. apply Rdiv_lt_0_compat; [apply exp_pos|apply sum_exp_pos; auto]. Qed.
Lemma net_prob_sum act layers K x : (0 < K)%nat -> sumn K (net_prob act layers K x) = 1.
Proof.
  intros H. unfold net_prob. pose proof (sum_exp_pos K (forward act layers x) H). unfold Rdiv.
  rewrite sumn_scal_r. apply Rinv_r. lra.
Qed.

Lemma net_plays act hidden d K layers : (0 < K)%Z -> Forall (fun h => (0 < h)%Z) hidden ->
  fits (mkArch (chain d hidden K) act true) layers ->
  plays (Z.to_nat d) (Z.to_nat K) (mkArch (chain d hidden K) act true) layers (net_prob act layers (Z.to_nat K)).
Proof.
  intros HK Hh Hf contexts Hc. unfold policy_predict_proba, check_dim. rewrite Nat.eqb_refl. cbn [negb raise_if bind]. f_equal.
  unfold nn_predict_proba. rewrite map_map. apply map_ext_in. intros x Hx. rewrite Forall_forall in Hc.
  rewrite net_row by auto. rewrite map_map. unfold tab. rewrite map_map. reflexivity.
Qed.

Lemma plays_unique dim K ar params p q : plays dim K ar params p -> plays dim K ar params q ->
  forall x a, length x = dim -> (a < K)%nat -> p x a = q x a.
Proof.
  intros Hp Hq x a Hx Ha. specialize (Hp [x] ltac:(auto)). specialize (Hq [x] ltac:(auto)). rewrite Hp in Hq. injection Hq as E.
  apply (f_equal (fun l => nth a l [])) in E. rewrite !nth_tab in E by auto. congruence.
Qed.

Lemma nth_close D x y a : close D x y -> (a < length x)%nat -> Rabs (nth a x 0 - nth a y 0) <= D.
Proof.
  intros H. revert a. induction H as [|u v x y H1 H IH]; intros a Ha; simpl in *; [lia|]. destruct a; auto. apply IH. lia.
Qed.
Lemma exp_le_mono x y : x <= y -> exp x <= exp y.
Proof. intros [H|H]; [left; apply exp_increasing; auto|rewrite H; lra]. Qed.
Lemma Rabs_between x b : Rabs x <= b -> - b <= x <= b.
Proof. unfold Rabs. destruct (Rcase_abs x); lra. Qed.
