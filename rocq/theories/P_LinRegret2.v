(** * P_LinRegret2: cumulative regret of LinUCB on arbitrary contexts, with any batch size (C167). *)

From Coq Require Import Reals List ZArith Lia Lra Psatz Bool.
From Verif Require Import Num NpList M_Utils M_Slate M_Multi M_Embed M_Policy M_Linear S_Base S_Tuning S_Policy S_Linear
  L_Num L_Base L_Tuning L_Embed L_Policy L_Linear P_Linear P_LinWidth P_LinRegret L_Potential.
Import ListNotations.
Open Scope R_scope.

(** A Gram form that dominates another one up to a factor gives widths that dominate in the other direction. *)
Lemma width_compare K d h h' a M M' x c : 0 < c ->
  is_inverse d (gram K h a) M -> is_inverse d (gram K h' a) M' ->
  (forall u, gf K d h' a u u <= c * gf K d h a u u) ->
  dot d x (mvec d M x) <= c * dot d x (mvec d M' x).
Proof.
  intros Hc H H' Hg. set (v := mvec d M x). set (v' := mvec d M' x).
  assert (E1 : dot d x v = gf K d h a v v) by (apply (quad_gf K d h a M H)).
  assert (E2 : dot d x v' = gf K d h' a v' v') by (apply (quad_gf K d h' a M' H')).
  assert (E3 : gf K d h' a v' v = dot d x v).
  { rewrite gf_sym. unfold v'. rewrite (gf_inv K d h' a M' H'). apply dot_sym. }
  pose proof (gf_nonneg K d h' a (fun i => v' i + (- / c) * v i)) as G. rewrite gf_expand, E3, <- E2 in G.
  specialize (Hg v). rewrite <- E1 in Hg.
  assert (S1 : (- / c) ^ 2 * gf K d h' a v v <= / c * dot d x v).
  { replace ((- / c) ^ 2 * gf K d h' a v v) with (/ c * (/ c * gf K d h' a v v)) by ring.
    apply Rmult_le_compat_l; [left; apply Rinv_0_lt_compat; auto|].
    apply (Rmult_le_reg_l c); auto. rewrite <- Rmult_assoc, Rinv_r by lra. lra. }
  fold v v'. assert (S2 : / c * dot d x v <= dot d x v') by lra.
  apply (Rmult_le_compat_l c) in S2; [|lra]. rewrite <- Rmult_assoc, Rinv_r in S2 by lra. lra.
Qed.

Lemma gf_few K d h h3 a u X0 : (forall e, In e h3 -> dot d (rd_x e) (rd_x e) <= X0 ^ 2) ->
  gf K d (h ++ h3) a u u <= (1 + INR (length h3) * X0 ^ 2) * gf K d h a u u.
Proof.
  intros H. rewrite gf_app. assert (G : dot d u u <= gf K d h a u u).
  { unfold gf. assert (0 <= lsum K h a (fun e => dot d u (rd_x e) * dot d u (rd_x e))) by (apply lsum_nonneg; intros; apply Rle_0_sqr). lra. }
  assert (S1 : lsum K h3 a (fun e => dot d u (rd_x e) * dot d u (rd_x e)) <= INR (length h3) * (X0 ^ 2 * dot d u u)).
  { clear G. induction h3 as [|e h3 IH]; [simpl; lra|]. cbn [lsum length]. rewrite S_INR.
    specialize (IH (fun e' He => H e' (or_intror He))). pose proof (H e (or_introl eq_refl)) as He.
    pose proof (dot_cs d u (rd_x e)) as CS. pose proof (dot_self_nonneg d u) as U.
    assert (dot d u u * dot d (rd_x e) (rd_x e) <= dot d u u * X0 ^ 2) by (apply Rmult_le_compat_l; auto).
    assert (0 <= X0 ^ 2 * dot d u u) by (apply Rmult_le_pos; [apply pow2_ge_0|auto]).
    destruct (Nat.eqb _ _); nra. }
  assert (0 <= INR (length h3) * X0 ^ 2) by (apply Rmult_le_pos; [apply pos_INR|apply pow2_ge_0]).
  assert (INR (length h3) * X0 ^ 2 * dot d u u <= INR (length h3) * X0 ^ 2 * gf K d h a u u) by (apply Rmult_le_compat_l; auto).
  lra.
Qed.

Lemma committed_tail {A} (B : nat) (h : list A) : (0 < B)%nat -> exists h3, h = committed B h ++ h3 /\ (length h3 <= B - 1)%nat.
Proof.
  intros HB. exists (skipn (length h / B * B) h). split; [symmetry; apply firstn_skipn|]. rewrite skipn_length.
  pose proof (Nat.div_mod (length h) B ltac:(lia)) as E. pose proof (Nat.mod_upper_bound (length h) B ltac:(lia)). lia.
Qed.

Section Potential.
  Variables (d K : nat) (X : nat -> nat -> R) (act : nat -> nat) (rew : nat -> nat -> R) (T : nat) (X0 : R).
  Variable M : nat -> nat -> nat -> nat -> R.
  Notation hist t := (first_rounds X (fun s => s) act rew t).
  Hypothesis HM : forall t a, (t < T)%nat -> (a < K)%nat -> is_inverse d (gram K (hist t) a) (M t a).
  Hypothesis Ha : forall t, (t < T)%nat -> (act t < K)%nat.
  Hypothesis HX : forall t, (t < T)%nat -> dot d (X t) (X t) <= X0 ^ 2.
  Definition fresh (t : nat) : R := dot d (X t) (mvec d (M t (act t)) (X t)).

  Lemma hist_S t : hist (S t) = hist t ++ [mkRound (Z.of_nat (act t)) (rew t (act t)) (X t)].
  Proof. unfold first_rounds. rewrite tab_S. reflexivity. Qed.
  Lemma fresh_bounds t : (t < T)%nat -> 0 <= fresh t <= X0 ^ 2.
  Proof.
    intros Ht. pose proof (HM t (act t) Ht (Ha t Ht)) as HI. unfold fresh. split.
    - rewrite (quad_gf K d _ _ _ HI). apply gf_nonneg.
    - eapply Rle_trans; [apply (width_le_norm K d _ _ _ _ HI)|]. apply HX; auto.
  Qed.
  Lemma pivs_all t : (t <= T)%nat -> forall a, (a < K)%nat -> pivs d (gram K (hist t) a).
  Proof.
    induction t as [|t IH]; intros Ht a Hk.
    - apply (pivs_ext d delta); [|apply pdet_id]. intros i j _ _. unfold gram. simpl. ring.
    - rewrite hist_S. apply (gram_pdet_snoc K d (hist t) _ a (M t a)); [apply IH; auto; lia|apply HM; auto; lia].
  Qed.
  Lemma log_sum t : (t <= T)%nat -> sumn t (fun s => ln (1 + fresh s)) = sumn K (fun a => ln (pdet d (gram K (hist t) a))).
  Proof.
    induction t as [|t IH]; intros Ht.
    - cbn [sumn]. symmetry. apply sumn_zero. intros a Hk. rewrite (pdet_ext d _ delta), (proj2 (pdet_id d)), ln_1; auto.
      intros i j _ _. unfold gram. simpl. ring.
    - cbn [sumn]. rewrite IH by lia. rewrite hist_S.
      rewrite (sumn_ext K (fun a => ln (pdet d (gram K (hist t ++ [mkRound (Z.of_nat (act t)) (rew t (act t)) (X t)]) a)))
         (fun a => ln (pdet d (gram K (hist t) a)) + (if Nat.eqb (act t) a then ln (1 + fresh t) else 0))).
      + rewrite sumn_plus. f_equal. rewrite (sumn_term K _ (act t)).
        * rewrite Nat.eqb_refl. reflexivity.
        * apply Ha. lia.
        * intros i _ Hne. destruct (Nat.eqb_spec (act t) i); [congruence|reflexivity].
      + intros a Hk. destruct (gram_pdet_snoc K d (hist t) (mkRound (Z.of_nat (act t)) (rew t (act t)) (X t)) a (M t a)) as [_ ->].
        * apply pivs_all; auto; lia.
        * apply HM; auto; lia.
        * cbn [rd_action rd_x]. rewrite slot_nat. destruct (Nat.eqb_spec (act t) a) as [E|E].
          { rewrite ln_mult. unfold fresh. rewrite E. reflexivity. apply pdet_pos, pivs_all; auto; lia.
            rewrite <- E. pose proof (fresh_bounds t ltac:(lia)). unfold fresh in *. lra. }
          { rewrite Rmult_1_r. ring. }
  Qed.

  (** The elliptical potential: the widths met along the run, squared and summed, grow only logarithmically. *)
  Lemma potential : sumn T fresh <= (1 + X0 ^ 2) * (INR K * INR d * ln (1 + INR T * X0 ^ 2)).
  Proof.
    eapply Rle_trans.
    { apply (sumn_le T _ (fun t => (1 + X0 ^ 2) * ln (1 + fresh t))). intros t Ht. apply ln_lower, fresh_bounds; auto. }
    rewrite sumn_scal. apply Rmult_le_compat_l; [pose proof (pow2_ge_0 X0); lra|]. rewrite log_sum by lia.
    rewrite Rmult_assoc, <- (sumn_const K (INR d * ln (1 + INR T * X0 ^ 2))). apply sumn_le. intros a Hk.
    pose proof (pivs_all T ltac:(lia) a Hk) as HP. pose proof (pdet_pos d _ HP) as P0.
    assert (B : pdet d (gram K (hist T) a) <= (1 + INR T * X0 ^ 2) ^ d).
    { apply pdet_bound; [apply gram_msym|auto|]. intros i Hi.
      replace (INR T) with (INR (length (hist T))) by (unfold first_rounds; rewrite tab_length; reflexivity).
      apply gram_diag_bound; [apply pow2_ge_0|]. intros e He. unfold first_rounds, tab in He.
      apply in_map_iff in He as (t & <- & Ht). apply in_seq in Ht. cbn [rd_x]. eapply Rle_trans; [|apply (HX t); lia].
      clear -Hi. unfold dot. replace (X t i ^ 2) with (X t i * X t i) by ring.
      induction d as [|n IH]; [lia|]. cbn [sumn]. destruct (Nat.eq_dec i n) as [->|Hne].
      - assert (0 <= sumn n (fun j => X t j * X t j)) by (apply sumn_nonneg; intros; apply Rle_0_sqr). lra.
      - specialize (IH ltac:(lia)). pose proof (Rle_0_sqr (X t n)) as Q. unfold Rsqr in Q. lra. }
    assert (B1 : 0 < 1 + INR T * X0 ^ 2) by (pose proof (Rmult_le_pos _ _ (pos_INR T) (pow2_ge_0 X0)); lra).
    rewrite <- (ln_pow (1 + INR T * X0 ^ 2) B1 d). destruct B as [B|B]; [left; apply ln_increasing; auto|rewrite B; lra].
  Qed.
End Potential.

Definition entry (A : arr3) (a i j : nat) : R := match nth j (nth i (nth a A []) []) NaN with Fin r => r | _ => 0 end.
Lemma entry_tab K d M a i j : (a < K)%nat -> (i < d)%nat -> (j < d)%nat -> entry (tab3F K d d M) a i j = M a i j.
Proof. intros. unfold entry, tab3F, tab2F, tabF. rewrite !nth_tab by auto. reflexivity. Qed.
Lemma is_inverse_ext d A B B' : (forall i j, (i < d)%nat -> (j < d)%nat -> B i j = B' i j) -> is_inverse d A B -> is_inverse d A B'.
Proof.
  intros E H i j Hi Hj. destruct (H i j Hi Hj) as [H1 H2]. split; [rewrite <- H1|rewrite <- H2]; apply sumn_ext; intros k Hk; rewrite E by auto; reflexivity.
Qed.
Lemma lsum_firstn K a f h m : (forall e, 0 <= f e) -> lsum K (firstn m h) a f <= lsum K h a f.
Proof.
  intros Hf. rewrite <- (firstn_skipn m h) at 2. rewrite lsum_app. assert (0 <= lsum K (skipn m h) a f) by (apply lsum_nonneg; auto). lra.
Qed.

(** ** C167 *)

(** Whatever actions are played (so for LinEpsilonGreedy, LinUCB and LinTS alike), with batch size 1 the squared widths
    x^T A^-1 x of the played actions, each read off the object just before its round, sum to at most
    (1 + X0^2) K d ln (1 + T X0^2). *)
Theorem C167_total_width d K L p0 X rew X0 T act :
  lin_post_init (Z.of_nat d) (Z.of_nat K) (Z.of_nat L) 1 = Ok p0 ->
  (forall t, (t < T)%nat -> (act t < K)%nat) -> (forall t, (t < T)%nat -> sumn d (fun i => X t i ^ 2) <= X0 ^ 2) ->
  exists width : nat -> R,
    (forall t, (t < T)%nat -> exists M,
       ln_A_inv (lin_updates d p0 (tab t (fun s => mkRound (Z.of_nat (act s)) (rew s (act s)) (X s)))) = tab3F K d d M /\
       width t = sumn d (fun i => X t i * sumn d (fun j => M (act t) i j * X t j))) /\
    sumn T width <= (1 + X0 ^ 2) * (INR K * INR d * ln (1 + INR T * X0 ^ 2)).
Proof.
  intros H0 Ha HXn. change 1%Z with (Z.of_nat 1) in H0.
  assert (HX : forall t, (t < T)%nat -> dot d (X t) (X t) <= X0 ^ 2).
  { intros t Ht. eapply Rle_trans; [|apply (HXn t Ht)]. apply Req_le, sumn_ext. intros. ring. }
  set (h := fun t => first_rounds X (fun t => t) act rew t).
  assert (Hv : forall t, (t <= T)%nat -> forall e, In e (h t) -> valid_action K (rd_action e)).
  { intros t Ht. apply first_rounds_valid. intros; apply Ha; lia. }
  set (M := fun t a => entry (ln_A_inv (lin_updates d p0 (h t))) a).
  assert (HM : forall t a, (t < T)%nat -> (a < K)%nat -> is_inverse d (gram K (h t) a) (M t a)).
  { intros t a Ht Hk. destruct (stored d K L 1 p0 (h t) H0 (Hv t ltac:(lia))) as (M1 & E1 & HM1). unfold M. rewrite E1.
    rewrite committed_one in HM1. apply (is_inverse_ext d _ (M1 a)); [|auto]. intros. rewrite entry_tab; auto. }
  exists (fresh d X act M). split; [|apply (potential d K X act rew T X0 M HM Ha HX)].
  intros t Ht. destruct (stored d K L 1 p0 (h t) H0 (Hv t ltac:(lia))) as (M1 & E1 & HM1). exists M1. split; [exact E1|].
  unfold fresh, dot, mvec, M. rewrite E1. apply sumn_ext. intros i Hi. f_equal. apply sumn_ext. intros j Hj. rewrite entry_tab; auto.
Qed.

(** LinUCB with any batch size on any sequence of contexts of norm at most X0, and any rewards whose total squared
    deviation from linear rewards x.w_a, plus |w_a|^2, is at most epsilon^2: the sum over T rounds of what any other
    choice of actions would have gained is at most
    2 epsilon sqrt ((1 + (B - 1) X0^2) (1 + X0^2) K d T ln (1 + T X0^2)). *)
Theorem C167_linucb_regret argsort d K L B p0 epsilon X rew w X0 T act :
  (forall xs, is_argsort xs (argsort xs)) ->
  lin_post_init (Z.of_nat d) (Z.of_nat K) (Z.of_nat L) (Z.of_nat B) = Ok p0 ->
  0 <= epsilon -> 0 <= X0 ->
  (forall t, (t < T)%nat -> sqrt (sumn d (fun i => X t i ^ 2)) <= X0) ->
  (forall a, (a < K)%nat ->
     sumn T (fun t => (rew t a - sumn d (fun i => w a i * X t i)) ^ 2) + sumn d (fun i => w a i ^ 2) <= epsilon ^ 2) ->
  played_by_linucb argsort d p0 epsilon X (fun t => t) rew T act ->
  (forall t, (t < T)%nat -> (act t < K)%nat) /\
  forall best, (forall t, (t < T)%nat -> (best t < K)%nat) ->
    sumn T (fun t => sumn d (fun i => X t i * w (best t) i) - sumn d (fun i => X t i * w (act t) i))
      <= 2 * epsilon * sqrt ((1 + (INR B - 1) * X0 ^ 2) * (1 + X0 ^ 2) * (INR K * INR d * INR T * ln (1 + INR T * X0 ^ 2))).
Proof.
  intros Hs H0 He HX0 HXn Hw Hplay.
  assert (HX : forall t, (t < T)%nat -> dot d (X t) (X t) <= X0 ^ 2).
  { intros t Ht. pose proof (HXn t Ht) as H. assert (E : dot d (X t) (X t) = sumn d (fun i => X t i ^ 2)) by (apply sumn_ext; intros; ring).
    pose proof (dot_self_nonneg d (X t)) as P. rewrite E in *. rewrite <- (sqrt_sqrt (sumn d (fun i => X t i ^ 2))) by auto.
    pose proof (sqrt_pos (sumn d (fun i => X t i ^ 2))). nra. }
  assert (Ha : forall t, (t < T)%nat -> (act t < K)%nat).
  { intros t. induction t as [t IH] using (well_founded_induction lt_wf). intros Ht.
    destruct (Hplay t Ht) as (l & E).
    destruct (C92_ucb_score argsort d K L B p0 (first_rounds X (fun t => t) act rew t) epsilon (X t) Hs H0)
      as (th & M & _ & _ & _ & l' & E' & ((_ & _ & Hin) & _)).
    { apply first_rounds_valid. intros s Hs'. apply IH; lia. }
    rewrite E in E'. injection E' as E'. apply Hin. rewrite <- E'. left; auto. }
  split; [exact Ha|]. intros best Hbest.
  destruct (init_pos d K L B p0 H0) as (Hd & HK & HL & HB).
  assert (H1 : exists p1, lin_post_init (Z.of_nat d) (Z.of_nat K) (Z.of_nat L) (Z.of_nat 1) = Ok p1).
  { revert H0. unfold lin_post_init. destruct (contextual_checks (Z.of_nat d) (Z.of_nat K) (Z.of_nat L) (Z.of_nat B)) eqn:EC; [|discriminate]. intros _.
    assert (EC1 : contextual_checks (Z.of_nat d) (Z.of_nat K) (Z.of_nat L) (Z.of_nat 1) = Ok tt).
    { revert EC. unfold contextual_checks, check_scalar_Z. cbn.
      repeat match goal with |- context [raise_if ?b _] => destruct b; cbn; try discriminate end; auto. }
    rewrite EC1. cbn [bind]. eauto. }
  destruct H1 as [p1 H1]. set (h := fun t => first_rounds X (fun t => t) act rew t).
  assert (Hv : forall t, (t <= T)%nat -> forall e, In e (h t) -> valid_action K (rd_action e)).
  { intros t Ht. apply first_rounds_valid. intros; apply Ha; lia. }
  set (M := fun t a => entry (ln_A_inv (lin_updates d p1 (h t))) a).
  assert (HM : forall t a, (t < T)%nat -> (a < K)%nat -> is_inverse d (gram K (h t) a) (M t a)).
  { intros t a Ht Hk. destruct (stored d K L 1 p1 (h t) H1 (Hv t ltac:(lia))) as (M1 & E1 & HM1). unfold M. rewrite E1.
    rewrite committed_one in HM1. apply (is_inverse_ext d _ (M1 a)); [|auto]. intros. rewrite entry_tab; auto. }
  set (c := 1 + (INR B - 1) * X0 ^ 2).
  assert (Hc : 0 < c).
  { unfold c. assert (1 <= INR B) by (apply (le_INR 1); lia). pose proof (Rmult_le_pos (INR B - 1) (X0 ^ 2) ltac:(lra) (pow2_ge_0 X0)). lra. }
  pose proof (potential d K X act rew T X0 M HM Ha HX) as POT. set (q := fresh d X act M) in *.
  assert (Hq : forall t, (t < T)%nat -> 0 <= q t) by (intros t Ht; apply (fresh_bounds d K X act rew T X0 M HM Ha HX t Ht)).
  assert (HR : forall t, (t < T)%nat ->
     sumn d (fun i => X t i * w (best t) i) - sumn d (fun i => X t i * w (act t) i) <= 2 * epsilon * sqrt (c * q t)).
  { intros t Ht.
    destruct (C162_linucb_optimism argsort d K L B p0 (h t) epsilon (X t) w Hs H0 (Hv t ltac:(lia)) He) as (M2 & l & sc & f & EM & Esel & Hf & _ & _ & Hreg).
    { intros a Ha'. eapply Rle_trans; [|apply (Hw a Ha')]. unfold ridge_loss. apply Rplus_le_compat.
      - eapply Rle_trans; [apply lsum_firstn; intros; apply pow2_ge_0|].
        eapply Rle_trans; [apply (lsum_first X (fun t => t) act rew K t a (fun e => (rd_reward e - dot d (w a) (rd_x e)) ^ 2))|].
        intros; apply pow2_ge_0. reflexivity. cbn [rd_reward rd_x].
        assert (Hsplit : forall g, (forall s, 0 <= g s) -> sumn t g <= sumn T g).
        { intros g Hg. clear -Hg Ht. induction T as [|T' IH]; [lia|]. cbn [sumn]. specialize (Hg T').
          destruct (Nat.eq_dec t T') as [->|]; [lra|]. specialize (IH ltac:(lia)). lra. }
        apply (Hsplit (fun s => (rew s a - dot d (w a) (X s)) ^ 2)). intros; apply pow2_ge_0.
      - unfold dot. apply Req_le. apply sumn_ext. intros. ring. }
    destruct (Hplay t Ht) as (l2 & E2). fold (h t) in E2. rewrite E2 in Esel. injection Esel as Ef _. subst f.
    specialize (Hreg (best t) (Hbest t Ht)).
    destruct (stored d K L B p0 (h t) H0 (Hv t ltac:(lia))) as (M3 & E3 & HM3). rewrite EM in E3.
    assert (HI : is_inverse d (gram K (committed B (h t)) (act t)) (M2 (act t))).
    { apply (is_inverse_ext d _ (M3 (act t))); [|apply HM3, Ha; auto]. intros i j Hi Hj.
      apply (f_equal (fun A => entry A (act t) i j)) in E3. rewrite !entry_tab in E3 by (auto; apply Ha; auto). congruence. }
    destruct (committed_tail B (h t) HB) as (h3 & E4 & Hlen).
    assert (Hw3 : dot d (X t) (mvec d (M2 (act t)) (X t)) <= c * q t).
    { unfold q, fresh. apply (width_compare K d (committed B (h t)) (h t) (act t)); auto.
      intros u. rewrite E4 at 1. eapply Rle_trans; [apply (gf_few K d _ h3 (act t) u X0)|].
      - intros e He'. assert (Hin : In e (h t)) by (rewrite E4; apply in_or_app; auto).
        unfold h, first_rounds, tab in Hin. apply in_map_iff in Hin as (s & <- & Hs'). apply in_seq in Hs'. cbn [rd_x]. apply HX. lia.
      - apply Rmult_le_compat_r; [apply gf_nonneg|]. unfold c. apply Rplus_le_compat_l, Rmult_le_compat_r; [apply pow2_ge_0|].
        replace (INR B - 1) with (INR (B - 1)) by (rewrite minus_INR by lia; reflexivity). apply le_INR; auto. }
    assert (2 * epsilon * sqrt (dot d (X t) (mvec d (M2 (act t)) (X t))) <= 2 * epsilon * sqrt (c * q t)).
    { apply Rmult_le_compat_l; [lra|]. apply sqrt_le_1_alt; auto. }
    unfold dot in Hreg at 1 2. lra. }
  eapply Rle_trans. { apply sumn_le. intros t Ht. apply (HR t Ht). }
  rewrite (sumn_scal T (2 * epsilon) (fun t => sqrt (c * q t))). apply Rmult_le_compat_l; [lra|].
  eapply Rle_trans. { apply (sum_sqrt T (fun t => c * q t)). intros t Ht. apply Rmult_le_pos; [lra|auto]. }
  apply sqrt_le_1_alt. rewrite sumn_scal. fold c.
  replace (c * (1 + X0 ^ 2) * (INR K * INR d * INR T * ln (1 + INR T * X0 ^ 2)))
    with (INR T * (c * ((1 + X0 ^ 2) * (INR K * INR d * ln (1 + INR T * X0 ^ 2))))) by ring.
  apply Rmult_le_compat_l; [apply pos_INR|]. apply Rmult_le_compat_l; [lra|auto].
Qed.

(** Contexts that never repeat, the points (t / 1600, 1): with noiseless linear rewards, K = 2, d = 2, batches of
    5 and epsilon 2, a run of 1600 rounds exists and the bound applies to it. *)
Example C167_ex : exists p0, lin_post_init 2 2 1 5 = Ok p0 /\
  let X := fun t i => nth i [INR t / 1600; 1] 0 in
  let w := fun a i => nth i (nth a [[1; 0]; [0; 1]] []) 0 in
  let rew := fun t a => sumn 2 (fun i => w a i * X t i) in
  exists act, played_by_linucb isort 2 p0 2 X (fun t => t) rew 1600 act /\
    (forall t t', X t = X t' -> t = t') /\
    sumn 1600 (fun t => sumn 2 (fun i => X t i * w 1%nat i) - sumn 2 (fun i => X t i * w (act t) i))
      <= 4 * sqrt ((1 + (INR 5 - 1) * 2 ^ 2) * (1 + 2 ^ 2) * (INR 2 * INR 2 * INR 1600 * ln (1 + INR 1600 * 2 ^ 2))).
Proof.
  assert (exists p0, lin_post_init 2 2 1 5 = Ok p0) as [p0 H0] by (eexists; reflexivity). exists p0. split; [exact H0|]. intros X w rew.
  destruct (C163_runs_exist isort 2 2 1 5 p0 2 X (fun t => t) rew 1600 isort_ok H0) as (act & _ & HP). exists act. split; [exact HP|].
  split.
  { intros t t' E. apply (f_equal (fun f => f 0%nat)) in E. unfold X in E. cbn [nth] in E. apply INR_eq. lra. }
  assert (HT : forall t, (t < 1600)%nat -> 0 <= INR t <= 1600).
  { intros t Ht. split; [apply pos_INR|]. replace 1600 with (INR 1600) by (rewrite INR_IZR_INZ; reflexivity). apply le_INR. lia. }
  destruct (C167_linucb_regret isort 2 2 1 5 p0 2 X rew w 2 1600 act isort_ok H0 ltac:(lra) ltac:(lra)) as [_ HR].
  - intros t Ht. specialize (HT t Ht). eapply Rle_trans; [|right; apply (sqrt_square 2); lra]. apply sqrt_le_1_alt.
    cbn [sumn X nth]. assert (0 <= INR t / 1600 <= 1) by lra. nra.
  - intros a Ha. rewrite sumn_zero.
    + assert (a = 0 \/ a = 1)%nat as [->| ->] by lia; cbn [sumn w nth]; lra.
    + intros t Ht. unfold rew. ring.
  - exact HP.
  - replace (2 * 2) with 4 in HR by ring. apply (HR (fun _ => 1%nat)). intros; lia.
Qed.

Print Assumptions C167_total_width.
Print Assumptions C167_linucb_regret.
