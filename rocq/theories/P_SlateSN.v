(** * P_SlateSN: consistency of the self-normalised slate estimators (C169). *)

From Coq Require Import Reals List ZArith Bool Lia Lra Psatz.
From Verif Require Import Num NpList M_Utils M_Slate S_Base S_Prob S_Slate S_Conc L_Num L_Base L_Prob L_Unbiased
  L_Slate L_SlateEst L_SlateUnb L_Conc L_Conc3 P_Slate P_SlateVar.
Import ListNotations.
Open Scope R_scope.

Lemma abs_between x y : Rabs x <= y <-> - y <= x <= y.
Proof. unfold Rabs. destruct (Rcase_abs x); split; lra. Qed.

Lemma sumn_ge_term n f k : (k < n)%nat -> (forall i, (i < n)%nat -> 0 <= f i) -> f k <= sumn n f.
Proof.
  induction n as [|n IH]; intros Hk H; [lia|]. cbn [sumn]. destruct (Nat.eq_dec k n) as [->|N].
  - assert (0 <= sumn n f) by (apply sumn_nonneg; intros; apply H; lia). lra.
  - assert (f k <= sumn n f) by (apply IH; [lia|intros; apply H; lia]). specialize (H n ltac:(lia)). lra.
Qed.

Lemma prob_union_n {A} (d : dist A) m (B : nat -> A -> bool) ev : is_dist d ->
  (forall a p, In (a, p) d -> p <> 0 -> ev a = true -> exists k, (k < m)%nat /\ B k a = true) -> prob d ev <= sumn m (fun k => prob d (B k)).
Proof.
  intros Hd H. unfold prob. rewrite <- expect_sumn. apply prob_le_expect; auto.
  - intros a p _ _. apply sumn_nonneg. intros k _. destruct (B k a); lra.
  - intros a p Ha Hp E. destruct (H a p Ha Hp E) as (k & Hk & Bk). eapply Rle_trans; [|apply (sumn_ge_term m (fun k => if B k a then 1 else 0) k)]; auto.
    + cbv beta. rewrite Bk. lra.
    + intros j _. cbv beta. destruct (B j a); lra.
Qed.

Lemma sumn_strict n f g : (0 < n)%nat -> (forall i, (i < n)%nat -> f i < g i) -> sumn n f < sumn n g.
Proof.
  intros Hn H. destruct n as [|n]; [lia|]. cbn [sumn]. assert (sumn n f <= sumn n g) by (apply sumn_le; intros i Hi; left; apply H; lia).
  pose proof (H n ltac:(lia)). lra.
Qed.

Section SN.
  Context {X : Type} (e : senv X) (He : senv_ok e).
  Variables (kd : skind) (W : R) (k : nat) (f : list R -> R) (B : R).
  Hypothesis HW : ratio_bound e kd W.
  Hypothesis Hk : (k < se_L e)%nat.
  Hypothesis HB0 : 0 <= B.
  Hypothesis HB : forall x s r p, In (r, p) (se_rd e x s) -> p <> 0 -> Rabs (f r) <= B.
  Hypothesis Hstr : forall x s t, agree kd k s t = true -> expect (se_rd e x s) f = expect (se_rd e x t) f.

  Definition part_value : R := avg (se_n e) (fun i => expect (se_ctx e i) (fun x => expect (se_nu e x) (fun s => expect (se_rd e x s) f))).
  Definition sn_w (y : option (X * list nat * list R)) : R := match y with Some (x, s, r) => swt e kd x k s | None => 0 end.
  Definition sn_wf (y : option (X * list nat * list R)) : R := match y with Some (x, s, r) => swt e kd x k s * f r | None => 0 end.
  Definition sn_dev (y : option (X * list nat * list R)) : R := match y with Some (x, s, r) => swt e kd x k s * (f r - part_value) | None => 0 end.

  Lemma expect_bound {A} (d : dist A) g M : is_dist d -> (forall a p, In (a, p) d -> p <> 0 -> Rabs (g a) <= M) -> Rabs (expect d g) <= M.
  Proof.
    intros Hd H. apply Rabs_le. split.
    - rewrite <- (expect_const d (- M)) by auto. apply expect_le_supp; auto. intros a p Ha Hp. specialize (H a p Ha Hp). apply abs_between in H. lra.
    - rewrite <- (expect_const d M) by auto. apply expect_le_supp; auto. intros a p Ha Hp. specialize (H a p Ha Hp). apply abs_between in H. lra.
  Qed.

  Lemma part_bound : Rabs part_value <= B.
  Proof.
    apply Rabs_le. apply avg_bounds; [apply He|]. intros i Hi. apply abs_between. apply expect_bound; [apply He; auto|]. intros x px _ _.
    apply expect_bound; [apply He|]. intros s ps _ _. apply expect_bound; [apply He|]. intros r pr Hr Hp. eapply HB; eauto.
  Qed.

  Lemma weighted_round i g : (forall x s t, agree kd k s t = true -> expect (se_rd e x s) g = expect (se_rd e x t) g) ->
    expect (slate_round e i) (fun y => match y with (x, s, r) => swt e kd x k s * g r end) =
    expect (se_ctx e i) (fun x => expect (se_nu e x) (fun s => expect (se_rd e x s) g)).
  Proof.
    intros Hg. rewrite expect_slate_round. apply expect_ext_all. intros x.
    rewrite <- (change_of_measure kd k (se_mu e x) (se_nu e x) (fun s => expect (se_rd e x s) g) (sv_mu e He x)).
    - apply expect_ext_all. intros s. rewrite expect_scal. reflexivity.
    - apply Hg.
    - intros s p Hin Hp. apply (ratio_support e He kd W HW x s p k); auto.
  Qed.

  Lemma weighted_square i g M : (i < se_n e)%nat -> (forall x s r p, In (r, p) (se_rd e x s) -> p <> 0 -> Rabs (g r) <= M) -> 0 <= M ->
    expect (slate_round e i) (fun y => match y with (x, s, r) => (swt e kd x k s * g r) * (swt e kd x k s * g r) end) <= W * (M * M).
  Proof.
    intros Hi Hg HM. rewrite expect_slate_round. rewrite <- (expect_const (se_ctx e i) (W * (M * M))) by (apply He; auto).
    apply expect_le_supp; [apply He; auto|]. intros x px _ _.
    apply Rle_trans with (expect (se_mu e x) (fun s => swt e kd x k s * swt e kd x k s * (M * M))).
    - apply expect_le_supp; [apply He|]. intros s ps _ _.
      rewrite <- (expect_const (se_rd e x s) (swt e kd x k s * swt e kd x k s * (M * M))) by apply He.
      apply expect_le_supp; [apply He|]. intros r pr Hr Hp.
      replace (swt e kd x k s * g r * (swt e kd x k s * g r)) with (swt e kd x k s * swt e kd x k s * (g r * g r)) by ring.
      apply Rmult_le_compat_l; [apply Rle_0_sqr|]. apply sq_le; auto. eapply Hg; eauto.
    - rewrite expect_scal_r. apply Rmult_le_compat_r; [apply Rle_0_sqr|]. apply swt_second; auto.
  Qed.

  (** The self-normalised mean misses [part_value] by eps or more, or its weights sum to zero. *)
  Definition part_off (eps : R) (o : list (X * list nat * list R)) : bool :=
    let w := avg (se_n e) (fun i => sn_w (nth_error o i)) in
    if Rlt_dec 0 w then if Rle_dec eps (Rabs (avg (se_n e) (fun i => sn_wf (nth_error o i)) / w - part_value)) then true else false else true.

  Lemma part_consistent eps : 0 < eps ->
    prob (slate_logs e) (part_off eps) <= 16 * W * (B * B) / (INR (se_n e) * (eps * eps)) + 4 * W / INR (se_n e).
  Proof.
    intros Heps. assert (HN : 0 < INR (se_n e)) by (apply lt_0_INR, He). pose proof part_bound as HV.
    assert (HD : forall i, (i < se_n e)%nat -> is_dist (slate_round e i)) by (intros; apply is_dist_slate_round; auto).
    pose proof (chebyshev (slate_round e) (se_n e) (fun _ => sn_dev) (W * (2 * B * (2 * B))) (eps / 2) (sv_n e He) ltac:(lra) HD) as C1.
    pose proof (chebyshev (slate_round e) (se_n e) (fun _ => sn_w) (W * (1 * 1)) (1 / 2) (sv_n e He) ltac:(lra) HD) as C2.
    assert (M1 : avg (se_n e) (fun i => expect (slate_round e i) (fun y => sn_dev (Some y))) = 0).
    { rewrite (avg_ext _ _ (fun i => expect (se_ctx e i) (fun x => expect (se_nu e x) (fun s => expect (se_rd e x s) f)) - part_value)).
      - rewrite avg_minus, avg_const by apply He. unfold part_value. ring.
      - intros i Hi. rewrite (expect_ext_all _ _ (fun y => match y with (x, s, r) => swt e kd x k s * (fun r => f r - part_value) r end)) by (intros [[x s] r]; reflexivity).
        rewrite weighted_round.
        + etransitivity; [|etransitivity; [apply (expect_minus (se_ctx e i) (fun x => expect (se_nu e x) (fun s => expect (se_rd e x s) f)) (fun _ => part_value))|rewrite expect_const by (apply He; auto); reflexivity]].
          apply expect_ext_all. intros x.
          etransitivity; [|etransitivity; [apply (expect_minus (se_nu e x) (fun s => expect (se_rd e x s) f) (fun _ => part_value))|rewrite expect_const by apply He; reflexivity]].
          apply expect_ext_all. intros s. rewrite expect_minus, expect_const by apply He. reflexivity.
        + intros x s t Hst. rewrite !expect_minus, !expect_const by apply He. rewrite (Hstr x s t Hst). reflexivity. }
    assert (M2 : avg (se_n e) (fun i => expect (slate_round e i) (fun y => sn_w (Some y))) = 1).
    { rewrite (avg_ext _ _ (fun _ => 1)); [apply avg_const, He|]. intros i Hi.
      rewrite (expect_ext_all _ _ (fun y => match y with (x, s, r) => swt e kd x k s * (fun _ => 1) r end)) by (intros [[x s] r]; simpl; ring).
      rewrite weighted_round.
      - rewrite (expect_ext_all _ _ (fun _ => 1)); [apply expect_const; apply He; auto|]. intros x. rewrite (expect_ext_all _ _ (fun _ => 1)); [apply expect_const; apply He|].
        intros s. apply expect_const. apply He.
      - intros. rewrite !expect_const by apply He. reflexivity. }
    cbv beta in C1, C2. rewrite M1 in C1. rewrite M2 in C2.
    eapply Rle_trans; [|apply Rplus_le_compat; [eapply Rle_trans; [apply C1|]|eapply Rle_trans; [apply C2|]]].
    - apply prob_union; [apply is_dist_dprod; auto|]. intros o p Ho Hp Hoff.
      destruct (Rle_dec (eps / 2) _) as [|N1]; [left; reflexivity|]. right. destruct (Rle_dec (1 / 2) _) as [|N2]; [reflexivity|]. exfalso.
      apply Rnot_le_lt in N1, N2. rewrite Rminus_0_r in N1.
      set (w := avg (se_n e) (fun i => sn_w (nth_error o i))) in *.
      assert (Bw : 1 / 2 < w) by (unfold Rabs in N2; destruct (Rcase_abs _); lra).
      assert (Ed : avg (se_n e) (fun i => sn_dev (nth_error o i)) = avg (se_n e) (fun i => sn_wf (nth_error o i)) - part_value * w).
      { unfold w. rewrite <- avg_scal, <- avg_minus. apply avg_ext. intros i _. unfold sn_dev, sn_wf, sn_w. destruct (nth_error o i) as [[[x s] r]|]; ring. }
      rewrite Ed in N1. unfold part_off in Hoff. cbv zeta in Hoff. fold w in Hoff. destruct (Rlt_dec 0 w) as [_|]; [|lra].
      destruct (Rle_dec _ _) as [Hle|]; [|discriminate]. revert Hle. apply Rlt_not_le.
      set (S := avg (se_n e) (fun i => sn_wf (nth_error o i))) in *.
      replace (S / w - part_value) with ((S - part_value * w) / w) by (field; lra).
      unfold Rdiv. rewrite Rabs_mult, Rabs_inv, (Rabs_right w) by lra.
      apply (Rmult_lt_reg_r w); [lra|]. rewrite Rmult_assoc, Rinv_l, Rmult_1_r by lra. apply (Rlt_le_trans _ (eps / 2)); auto. nra.
    - intros i Hi. eapply Rle_trans; [|apply (weighted_square i (fun r => f r - part_value) (2 * B)); auto; [|lra]].
      + right. apply expect_ext_all. intros [[x s] r]. reflexivity.
      + intros x s r p Hr Hp. eapply Rle_trans; [apply Rabs_triang|]. rewrite Rabs_Ropp. pose proof (HB x s r p Hr Hp). lra.
    - right. field. split; lra.
    - intros i Hi. eapply Rle_trans; [|apply (weighted_square i (fun _ => 1) 1); auto; [|lra]].
      + right. apply expect_ext_all. intros [[x s] r]. simpl. ring.
      + intros. rewrite Rabs_R1. lra.
    - right. field. lra.
  Qed.
End SN.

Lemma pos_total_blocks {X} (e : senv X) kd o k g : (k < se_L e)%nat ->
  pos_total (slate_log e kd o) k g = sumn (se_n e) (fun i => g (i * se_L e + k)%nat).
Proof.
  intros Hk. unfold pos_total. cbn [slate_log sl_n sl_pos]. rewrite sumn_block. apply sumn_ext. intros i Hi.
  rewrite (sumn_term _ _ k Hk).
  - destruct (divmod_block i k (se_L e) Hk) as [_ ->]. destruct (Nat.eq_dec k k); [reflexivity|congruence].
  - intros j Hj N. destruct (divmod_block i j (se_L e) Hj) as [_ ->]. destruct (Nat.eq_dec j k); [congruence|reflexivity].
Qed.

(** The two per-position estimators on a generated log. *)
Lemma sn_on_log {X} (e : senv X) (He : senv_ok e) kd o p : kd <> Standard -> In (o, p) (slate_logs e) -> p <> 0 ->
  (forall k, (k < se_L e)%nat -> 0 < avg (se_n e) (fun i => sn_w e kd k (nth_error o i))) ->
  let l := slate_log e kd o in
  (match kd with Cascade => snrips_value | _ => sniips_value end) (se_L e) (s_ids l) (s_rew l) (s_pos l) (s_p l) (s_pe l)
  = Ok (Fin (sumn (se_L e) (fun k => avg (se_n e) (fun i => sn_wf e kd k (fun r => nth k r 0) (nth_error o i)) / avg (se_n e) (fun i => sn_w e kd k (nth_error o i))))).
Proof.
  intros Hkd Ho Hp Hw l. assert (HN : 0 < INR (se_n e)) by (apply lt_0_INR, He).
  assert (Hok := slate_log_ok e He kd o p Ho Hp). assert (Hs := slate_log_slates e He kd o). fold l in Hok, Hs.
  assert (HW : forall k, (k < se_L e)%nat -> pos_total l k (s_weight l) = sumn (se_n e) (fun i => sn_w e kd k (nth_error o i))).
  { intros k Hk. unfold l. rewrite pos_total_blocks by auto. apply sumn_ext. intros i Hi. unfold s_weight, slate_log; cbn [sl_p sl_pe].
    destruct (divmod_block i k (se_L e) Hk) as [-> ->]. destruct (log_outcome e o p Ho Hp i Hi) as (x & s & r & q & -> & _). reflexivity. }
  assert (HWF : forall k, (k < se_L e)%nat -> pos_total l k (fun i => sl_r l i * s_weight l i) = sumn (se_n e) (fun i => sn_wf e kd k (fun r => nth k r 0) (nth_error o i))).
  { intros k Hk. unfold l. rewrite pos_total_blocks by auto. apply sumn_ext. intros i Hi. unfold s_weight, slate_log; cbn [sl_p sl_pe sl_r].
    destruct (divmod_block i k (se_L e) Hk) as [-> ->]. destruct (log_outcome e o p Ho Hp i Hi) as (x & s & r & q & -> & _). unfold sn_wf, swt. ring. }
  assert (HC : forall k, (k < se_L e)%nat -> pos_count l k = INR (se_n e)).
  { intros k Hk. change (pos_count l k) with (pos_total l k (fun _ => 1)). unfold l. rewrite pos_total_blocks by auto. rewrite sumn_const. ring. }
  assert (HP : forall k, (k < se_L e)%nat -> 0 < sumn (se_n e) (fun i => sn_w e kd k (nth_error o i))).
  { intros k Hk. specialize (Hw k Hk). unfold avg in Hw. apply (Rmult_lt_reg_r (/ INR (se_n e))); [apply Rinv_0_lt_compat; auto|]. unfold Rdiv in Hw. lra. }
  destruct (C38_per_position_value l (seq 0 (se_n e)) (se_L e) Hok Hs) as [E1 E2].
  { intros k Hk _. rewrite HW by auto. auto. }
  assert (EV : sumn (se_L e) (fun k => pos_count l k * (pos_total l k (fun i => sl_r l i * s_weight l i) / pos_total l k (s_weight l))) / INR (length (seq 0 (se_n e)))
     = sumn (se_L e) (fun k => avg (se_n e) (fun i => sn_wf e kd k (fun r => nth k r 0) (nth_error o i)) / avg (se_n e) (fun i => sn_w e kd k (nth_error o i)))).
  { rewrite seq_length. rewrite (sumn_ext (se_L e) _ (fun k => INR (se_n e) * (avg (se_n e) (fun i => sn_wf e kd k (fun r => nth k r 0) (nth_error o i)) / avg (se_n e) (fun i => sn_w e kd k (nth_error o i))))).
    - rewrite sumn_scal. field. lra.
    - intros k Hk. rewrite HC, HW, HWF by auto. unfold avg. specialize (HP k Hk). field. split; lra. }
  rewrite <- EV. destruct kd; [congruence|exact E1|apply E2]. eapply slate_log_cascading; eauto.
Qed.

(** SNSIPS on a generated log. *)
Lemma snsips_on_log {X} (e : senv X) (He : senv_ok e) o p : In (o, p) (slate_logs e) -> p <> 0 ->
  0 < avg (se_n e) (fun i => sn_w e Standard 0 (nth_error o i)) ->
  let l := slate_log e Standard o in
  snsips_value (s_ids l) (s_rew l) (s_pos l) (s_p l) (s_pe l)
  = Ok (Fin (avg (se_n e) (fun i => sn_wf e Standard 0 (fun r => sumn (se_L e) (fun k => nth k r 0)) (nth_error o i)) / avg (se_n e) (fun i => sn_w e Standard 0 (nth_error o i)))).
Proof.
  intros Ho Hp Hw l. assert (HN : 0 < INR (se_n e)) by (apply lt_0_INR, He). assert (HL : 0 < INR (se_L e)) by (apply lt_0_INR, He).
  assert (Hok := slate_log_ok e He Standard o p Ho Hp). assert (Hs := slate_log_slates e He Standard o). fold l in Hok, Hs.
  assert (HP : 0 < sumn (se_n e) (fun i => sn_w e Standard 0 (nth_error o i))).
  { unfold avg in Hw. apply (Rmult_lt_reg_r (/ INR (se_n e))); [apply Rinv_0_lt_compat; auto|]. unfold Rdiv in Hw. lra. }
  assert (E1 : sumn (sl_n l) (s_weight l) = INR (se_L e) * sumn (se_n e) (fun i => sn_w e Standard 0 (nth_error o i))).
  { change (sl_n l) with (se_n e * se_L e)%nat. rewrite sumn_block, <- sumn_scal. apply sumn_ext. intros i Hi. rewrite <- sumn_const. apply sumn_ext. intros k Hk.
    unfold s_weight, l, slate_log; cbn [sl_p sl_pe]. destruct (divmod_block i k (se_L e) Hk) as [-> ->].
    destruct (log_outcome e o p Ho Hp i Hi) as (x & s & r & q & -> & _). reflexivity. }
  assert (E2 : sumn (sl_n l) (fun i => sl_r l i * s_weight l i) = sumn (se_n e) (fun i => sn_wf e Standard 0 (fun r => sumn (se_L e) (fun k => nth k r 0)) (nth_error o i))).
  { change (sl_n l) with (se_n e * se_L e)%nat. rewrite sumn_block. apply sumn_ext. intros i Hi.
    destruct (log_outcome e o p Ho Hp i Hi) as (x & s & r & q & EO & _). rewrite EO. unfold sn_wf. rewrite <- sumn_scal. apply sumn_ext. intros k Hk.
    unfold s_weight, l, slate_log; cbn [sl_p sl_pe sl_r]. destruct (divmod_block i k (se_L e) Hk) as [-> ->]. rewrite EO. unfold swt. change (propensity Standard k) with (propensity Standard 0). ring. }
  etransitivity; [apply (C38_standard_value l (seq 0 (se_n e)) Hok Hs (slate_log_constant e o))|].
  - rewrite E1. apply Rmult_lt_0_compat; auto.
  - do 2 f_equal. rewrite E1, E2, seq_length. change (sl_n l) with (se_n e * se_L e)%nat. rewrite mult_INR. unfold avg. field. repeat split; lra.
Qed.

(** ** C169 *)

(** The three self-normalised estimators: with weights at most W and rewards at most Rm in absolute value, on n independent slates the estimate
    misses the value of the evaluation policy by eps or more (or is no finite number) with a probability that vanishes as n grows. *)
Theorem C169_standard_consistent : forall (X : Type) (e : senv X) W Rm eps, senv_ok e -> 0 < eps ->
  (forall x s k, (k < se_L e)%nat -> propensity Standard k (se_nu e x) s <= W * propensity Standard k (se_mu e x) s) ->
  (forall x s r p k, In (r, p) (se_rd e x s) -> p <> 0 -> (k < se_L e)%nat -> Rabs (nth k r 0) <= Rm) ->
  prob (slate_logs e) (fun o => let l := slate_log e Standard o in
    estimate_off (snsips_value (s_ids l) (s_rew l) (s_pos l) (s_p l) (s_pe l)) (slate_policy_value e) eps)
  <= 16 * INR (se_L e) ^ 2 * W * Rm ^ 2 / (INR (se_n e) * eps ^ 2) + 4 * W / INR (se_n e).
Proof.
  intros X e W Rm eps He Heps HW HR. assert (HN : 0 < INR (se_n e)) by (apply lt_0_INR, He).
  set (f := fun r => sumn (se_L e) (fun k => nth k r 0)).
  assert (HB : forall x s r p, In (r, p) (se_rd e x s) -> p <> 0 -> Rabs (f r) <= INR (se_L e) * Rm).
  { intros x s r p Hr Hp. unfold f. eapply Rle_trans; [apply sumn_abs|]. rewrite <- sumn_const. apply sumn_le. intros k Hk. eapply HR; eauto. }
  assert (HB0 : 0 <= INR (se_L e) * Rm).
  { destruct (se_ctx e 0) as [|[x q] l] eqn:Ec; [destruct (sv_ctx e He 0%nat (sv_n e He)) as [_ Hs]; rewrite Ec in Hs; simpl in Hs; lra|].
    eapply Rle_trans; [apply (Rabs_pos (expect (se_rd e x []) f))|]. apply expect_bound; [apply He|]. intros r p Hr Hp. eapply HB; eauto. }
  assert (EV : part_value e f = slate_policy_value e).
  { unfold part_value, slate_policy_value. apply avg_ext. intros i Hi. apply expect_ext_all. intros x. apply expect_ext_all. intros s. unfold f. rewrite expect_sumn. reflexivity. }
  pose proof (part_consistent e He Standard W 0 f (INR (se_L e) * Rm) HW (sv_L e He) HB0 HB) as PC.
  eapply Rle_trans; [|eapply Rle_trans; [apply (PC ltac:(intros x s t Hst; simpl in Hst; destruct (list_eq_dec _ s t); [congruence|discriminate]) eps Heps)|]].
  - unfold prob. apply expect_le_supp; [apply is_dist_dprod; intros; apply is_dist_slate_round; auto|]. intros o p Ho Hp. cbv zeta.
    unfold part_off. cbv zeta. fold f. rewrite EV. destruct (Rlt_dec 0 _) as [Hw|_]; [|destruct (estimate_off _ _ _); lra].
    rewrite (snsips_on_log e He o p Ho Hp Hw). unfold estimate_off. fold f. lra.
  - right. field. split; lra.
Qed.

Lemma position_consistent {X} (e : senv X) kd W Rm eps : senv_ok e -> kd <> Standard -> 0 < eps -> ratio_bound e kd W ->
  (forall x s r p k, In (r, p) (se_rd e x s) -> p <> 0 -> (k < se_L e)%nat -> Rabs (nth k r 0) <= Rm) -> reward_structure e kd ->
  prob (slate_logs e) (fun o => let l := slate_log e kd o in
    estimate_off ((match kd with Cascade => snrips_value | _ => sniips_value end) (se_L e) (s_ids l) (s_rew l) (s_pos l) (s_p l) (s_pe l)) (slate_policy_value e) eps)
  <= 16 * INR (se_L e) ^ 3 * W * Rm ^ 2 / (INR (se_n e) * eps ^ 2) + 4 * INR (se_L e) * W / INR (se_n e).
Proof.
  intros He Hkd Heps HW HR Hstr. assert (HN : 0 < INR (se_n e)) by (apply lt_0_INR, He). assert (HL : 0 < INR (se_L e)) by (apply lt_0_INR, He).
  set (f := fun k (r : list R) => nth k r 0). set (V := fun k => part_value e (f k)).
  assert (HRm : 0 <= Rm).
  { destruct (se_ctx e 0) as [|[x q] l] eqn:Ec; [destruct (sv_ctx e He 0%nat (sv_n e He)) as [_ Hs]; rewrite Ec in Hs; simpl in Hs; lra|].
    eapply Rle_trans; [apply (Rabs_pos (expect (se_rd e x []) (f 0%nat)))|]. apply expect_bound; [apply He|]. intros r p Hr Hp. eapply HR; eauto. apply He. }
  assert (HE : 0 < eps / INR (se_L e)) by (apply Rdiv_lt_0_compat; auto).
  assert (EV : slate_policy_value e = sumn (se_L e) V).
  { unfold slate_policy_value, V, part_value. unfold avg. symmetry. rewrite sumn_div. f_equal. rewrite sumn_swap. apply sumn_ext. intros i Hi.
    rewrite <- expect_sumn. apply expect_ext_all. intros x. rewrite <- expect_sumn. apply expect_ext_all. intros s. reflexivity. }
  eapply Rle_trans; [apply (prob_union_n (slate_logs e) (se_L e) (fun k => part_off e kd k (f k) (eps / INR (se_L e))))|].
  - apply is_dist_dprod; intros; apply is_dist_slate_round; auto.
  - intros o p Ho Hp Hoff. destruct (existsb (fun k => part_off e kd k (f k) (eps / INR (se_L e)) o) (seq 0 (se_L e))) eqn:EX.
    { apply existsb_exists in EX as (k & Hk & Bk). apply in_seq in Hk. exists k. split; [lia|exact Bk]. }
    exfalso.
    assert (G : forall k, (k < se_L e)%nat -> 0 < avg (se_n e) (fun i => sn_w e kd k (nth_error o i)) /\
      Rabs (avg (se_n e) (fun i => sn_wf e kd k (f k) (nth_error o i)) / avg (se_n e) (fun i => sn_w e kd k (nth_error o i)) - V k) < eps / INR (se_L e)).
    { intros k Hk. assert (PF : part_off e kd k (f k) (eps / INR (se_L e)) o = false).
      { destruct (part_off e kd k (f k) (eps / INR (se_L e)) o) eqn:EP; auto. rewrite <- EX. symmetry. apply existsb_exists. exists k. split; auto. apply in_seq. lia. }
      unfold part_off in PF. cbv zeta in PF. destruct (Rlt_dec 0 _) as [Hw|]; [|discriminate]. split; auto.
      destruct (Rle_dec _ _) as [|Hn]; [discriminate|]. apply Rnot_le_lt. exact Hn. }
    cbv zeta in Hoff. rewrite (sn_on_log e He kd o p Hkd Ho Hp (fun k Hk => proj1 (G k Hk))) in Hoff. unfold estimate_off in Hoff.
    destruct (Rle_dec _ _) as [Hle|]; [|discriminate]. revert Hle. apply Rlt_not_le. rewrite EV, <- sumn_minus.
    eapply Rle_lt_trans; [apply sumn_abs|]. replace eps with (sumn (se_L e) (fun _ => eps / INR (se_L e))) at 1 by (rewrite sumn_const; field; lra).
    apply sumn_strict; [apply He|]. intros k Hk. apply (G k Hk).
  - apply Rle_trans with (sumn (se_L e) (fun _ => 16 * W * (Rm * Rm) / (INR (se_n e) * (eps / INR (se_L e) * (eps / INR (se_L e)))) + 4 * W / INR (se_n e))).
    + apply sumn_le. intros k Hk. apply part_consistent; auto.
      * intros x s r p Hr Hp. eapply HR; eauto.
      * intros x s t Hst. apply (Hstr x s t k Hk Hst).
    + right. rewrite sumn_const. field. repeat split; lra.
Qed.

Theorem C169_independent_consistent : forall (X : Type) (e : senv X) W Rm eps, senv_ok e -> 0 < eps ->
  (forall x s k, (k < se_L e)%nat -> propensity Independent k (se_nu e x) s <= W * propensity Independent k (se_mu e x) s) ->
  (forall x s r p k, In (r, p) (se_rd e x s) -> p <> 0 -> (k < se_L e)%nat -> Rabs (nth k r 0) <= Rm) ->
  reward_structure e Independent ->
  prob (slate_logs e) (fun o => let l := slate_log e Independent o in
    estimate_off (sniips_value (se_L e) (s_ids l) (s_rew l) (s_pos l) (s_p l) (s_pe l)) (slate_policy_value e) eps)
  <= 16 * INR (se_L e) ^ 3 * W * Rm ^ 2 / (INR (se_n e) * eps ^ 2) + 4 * INR (se_L e) * W / INR (se_n e).
Proof. intros X e W Rm eps He Heps HW HR Hs. apply (position_consistent e Independent W Rm eps); auto. discriminate. Qed.

Theorem C169_cascade_consistent : forall (X : Type) (e : senv X) W Rm eps, senv_ok e -> 0 < eps ->
  (forall x s k, (k < se_L e)%nat -> propensity Cascade k (se_nu e x) s <= W * propensity Cascade k (se_mu e x) s) ->
  (forall x s r p k, In (r, p) (se_rd e x s) -> p <> 0 -> (k < se_L e)%nat -> Rabs (nth k r 0) <= Rm) ->
  reward_structure e Cascade ->
  prob (slate_logs e) (fun o => let l := slate_log e Cascade o in
    estimate_off (snrips_value (se_L e) (s_ids l) (s_rew l) (s_pos l) (s_p l) (s_pe l)) (slate_policy_value e) eps)
  <= 16 * INR (se_L e) ^ 3 * W * Rm ^ 2 / (INR (se_n e) * eps ^ 2) + 4 * INR (se_L e) * W / INR (se_n e).
Proof. intros X e W Rm eps He Heps HW HR Hs. apply (position_consistent e Cascade W Rm eps); auto. discriminate. Qed.

(** [rev_env] with n logged slates of two positions meets the hypotheses; with ten thousand slates the values are off by 1/2 with probability below 0.07. *)
Definition rev_envs (n : nat) : senv unit := {|
  se_n := n; se_L := 2; se_ctx := se_ctx rev_env; se_mu := se_mu rev_env; se_nu := se_nu rev_env; se_rd := se_rd rev_env |}.

Lemma rev_envs_ok n : (0 < n)%nat -> senv_ok (rev_envs n).
Proof. intros Hn. destruct rev_env_ok as [_ H2 H3 H4 H5 H6]. constructor; auto. intros i _. apply (H3 0%nat). simpl; lia. Qed.

Example C169_example : forall n, INR n = 10000 ->
  prob (slate_logs (rev_envs n)) (fun o => let l := slate_log (rev_envs n) Standard o in
    estimate_off (snsips_value (s_ids l) (s_rew l) (s_pos l) (s_p l) (s_pe l)) (slate_policy_value (rev_envs n)) (1 / 2)) <= 7 / 100 /\
  prob (slate_logs (rev_envs n)) (fun o => let l := slate_log (rev_envs n) Cascade o in
    estimate_off (snrips_value 2 (s_ids l) (s_rew l) (s_pos l) (s_p l) (s_pe l)) (slate_policy_value (rev_envs n)) (1 / 2)) <= 7 / 100 /\
  prob (slate_logs (rev_envs n)) (fun o => let l := slate_log (rev_envs n) Independent o in
    estimate_off (sniips_value 2 (s_ids l) (s_rew l) (s_pos l) (s_p l) (s_pe l)) (slate_policy_value (rev_envs n)) (1 / 2)) <= 7 / 100.
Proof.
  intros n Hn. assert (Hpos : (0 < n)%nat) by (apply INR_lt; rewrite Hn; simpl; lra). assert (H2 : INR 2 = 2) by (simpl; lra).
  pose proof (rev_envs_ok n Hpos) as Ho. split; [|split].
  - eapply Rle_trans; [apply (C169_standard_consistent unit (rev_envs n) (4/3) 1 (1/2) Ho ltac:(lra) (rev_ratio Standard) rev_bound)|].
    cbn [se_n se_L rev_envs]. rewrite Hn, H2. lra.
  - eapply Rle_trans; [apply (C169_cascade_consistent unit (rev_envs n) (4/3) 1 (1/2) Ho ltac:(lra) (rev_ratio Cascade) rev_bound rev_structure)|].
    cbn [se_n se_L rev_envs]. rewrite Hn, H2. lra.
  - eapply Rle_trans; [apply (C169_independent_consistent unit (rev_envs n) (4/3) 1 (1/2) Ho ltac:(lra) (rev_ratio Independent) rev_bound rev_independent)|].
    cbn [se_n se_L rev_envs]. rewrite Hn, H2. lra.
Qed.
Example C169_example_size : INR (Z.to_nat 10000) = 10000.
Proof. rewrite INR_IZR_INZ, Z2Nat.id by lia. reflexivity. Qed.

Print Assumptions C169_standard_consistent.
Print Assumptions C169_independent_consistent.
Print Assumptions C169_cascade_consistent.
