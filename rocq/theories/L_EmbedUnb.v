(** * L_EmbedUnb: unbiasedness of MIPW and estimated weights. *)

From Coq Require Import Reals List ZArith Lia Lra Bool Permutation Sorted.
From Verif Require Import Num NpList M_Utils M_Estimators M_Slate M_Multi M_Embed S_Base S_Prob S_Estimators
  S_Embed L_Num L_Base L_Estimators L_Prob L_Unbiased L_Tuning L_Slate L_Multi L_Embed.
Import ListNotations.
Open Scope R_scope.

Definition lsumf {A} (S : list A) (f : A -> R) : R := fold_right (fun v acc => f v + acc) 0 S.

Lemma lsumf_plus {A} S (f g : A -> R) : lsumf S (fun v => f v + g v) = lsumf S f + lsumf S g.
Proof. induction S; simpl; lra. Qed.
Lemma lsumf_ext {A} S (f g : A -> R) : (forall v, In v S -> f v = g v) -> lsumf S f = lsumf S g.
Proof. induction S; simpl; intros H; auto. rewrite H by auto. rewrite IHS; auto. Qed.
Lemma lsumf_zero {A} (S : list A) f : (forall v, In v S -> f v = 0) -> lsumf S f = 0.
Proof. induction S; simpl; intros H; auto. rewrite H by auto. rewrite IHS; auto. lra. Qed.

Definition eqv (u v : list nat) : R := if list_eq_dec Nat.eq_dec u v then 1 else 0.

Lemma lsumf_single (S : list (list nat)) x f : NoDup S -> In x S -> lsumf S (fun v => eqv x v * f v) = f x.
Proof.
  induction S as [|y S IH]; intros Hn Hx. inversion Hx. inversion Hn; subst. simpl.
  destruct Hx as [->|Hx].
  - unfold eqv at 1. destruct (list_eq_dec Nat.eq_dec x x); [|congruence].
    rewrite lsumf_zero. lra. intros v Hv. unfold eqv. destruct (list_eq_dec Nat.eq_dec x v). subst. tauto. lra.
  - rewrite IH by auto. unfold eqv. destruct (list_eq_dec Nat.eq_dec x y). subst. tauto. lra.
Qed.

Lemma expect_support (d : dist (list nat)) S f : NoDup S -> (forall v p, In (v, p) d -> In v S) ->
  expect d f = lsumf S (fun v => pr d v * f v).
Proof.
  intros Hn. induction d as [|[x p] d IH]; intros Hd.
  - simpl. rewrite lsumf_zero; auto. intros. unfold pr. simpl. lra.
  - change (expect ((x, p) :: d) f) with (f x * p + expect d f). rewrite IH by (intros; apply (Hd v p0); simpl; auto).
    symmetry. rewrite (lsumf_ext S (fun v => pr ((x, p) :: d) v * f v) (fun v => eqv x v * (f v * p) + pr d v * f v)).
    2:{ intros v Hv. cbv beta. change (pr ((x, p) :: d) v) with (eqv x v * p + pr d v). ring. }
    rewrite lsumf_plus, (lsumf_single S x (fun v => f v * p)); auto. apply (Hd x p). simpl; auto.
Qed.

Lemma pr_nonneg d v : is_dist d -> 0 <= pr d v.
Proof. intros [H _]. apply expect_nonneg; auto. intros a p Hin. destruct (list_eq_dec Nat.eq_dec a v); lra. Qed.

Lemma change_measure d1 d2 q : is_dist d1 -> is_dist d2 -> (forall v, 0 < pr d2 v -> 0 < pr d1 v) ->
  expect d1 (fun v => pr d2 v / pr d1 v * q v) = expect d2 q.
Proof.
  intros H1 H2 Hs.
  set (S := nodup (list_eq_dec Nat.eq_dec) (map fst d1 ++ map fst d2)).
  assert (HS : NoDup S) by apply NoDup_nodup.
  rewrite (expect_support d1 S), (expect_support d2 S); auto.
  - apply lsumf_ext. intros v _. pose proof (pr_nonneg d2 v H2) as Hp.
    destruct (Rle_lt_or_eq_dec _ _ Hp) as [Hpos|Hz].
    + specialize (Hs v Hpos). field. lra.
    + rewrite <- Hz. unfold Rdiv. ring.
  - intros v p Hv. apply nodup_In, in_or_app. right. apply in_map_iff. exists (v, p). auto.
  - intros v p Hv. apply nodup_In, in_or_app. left. apply in_map_iff. exists (v, p). auto.
Qed.

Section Unb.
  Context {X : Type} (e : eenv X) (He : eenv_ok e).

  Lemma is_dist_emb x s : is_dist (emb_under e (en_pb e x s)) /\ is_dist (emb_under e (en_pe e x s)).
  Proof.
    split; apply is_dist_dbind.
    - apply is_dist_dtab. intros; apply He; auto. apply He.
    - intros a p Ha. apply In_dtab in Ha as [Ha _]. apply He; auto.
    - apply is_dist_dtab. intros; apply He; auto. apply He.
    - intros a p Ha. apply In_dtab in Ha as [Ha _]. apply He; auto.
  Qed.

  Lemma is_dist_eround i : (i < en_n e)%nat -> is_dist (e_round e i).
  Proof.
    intros Hi. unfold e_round. apply is_dist_dbind. apply He; auto.
    intros x p _. apply is_dist_dbind. apply is_dist_dtab. intros; apply He; auto. apply He.
    intros a q Ha. apply In_dtab in Ha as [Ha _]. apply is_dist_dbind. apply He; auto.
    intros v w _. apply is_dist_dmap. apply He.
  Qed.

  Lemma pr_ge d v p : is_dist d -> In (v, p) d -> p <= pr d v.
  Proof.
    intros [H _]. revert H. unfold pr. induction d as [|[u w] d IH]; simpl; intros H Hin. tauto.
    assert (0 <= expect d (fun u => if list_eq_dec Nat.eq_dec u v then 1 else 0)).
    { apply expect_nonneg. eauto. intros a q Hq. destruct (list_eq_dec Nat.eq_dec a v); lra. }
    assert (0 <= w) by (apply (H u w); auto).
    destruct Hin as [[= -> ->]|Hin].
    - destruct (list_eq_dec Nat.eq_dec v v); [lra|congruence].
    - specialize (IH ltac:(intros; eapply H; eauto) Hin). destruct (list_eq_dec Nat.eq_dec u v); nra.
  Qed.

  Lemma In_dbind_intro {A B} (d : dist A) (k : A -> dist B) a p b q :
    In (a, p) d -> In (b, q) (k a) -> In (b, p * q) (dbind d k).
  Proof.
    intros H1 H2. unfold dbind. apply in_flat_map. exists (a, p). split; auto. apply in_map_iff. exists (b, q). auto.
  Qed.

  Lemma In_eround i x a v r p : In ((x, a, v, r), p) (e_round e i) -> p <> 0 ->
    (a < en_K e)%nat /\ 0 < pr (emb_under e (en_pb e x (en_pos e i))) v /\
    length v = en_D e /\ (forall d, (d < en_D e)%nat -> (nth d v 0 < en_C e)%nat).
  Proof.
    intros H Hp. unfold e_round in H.
    apply In_dbind in H as (x' & p1 & p2 & Hx & H & ->).
    apply In_dbind in H as (a' & p3 & p4 & Ha & H & ->).
    apply In_dbind in H as (v' & p5 & p6 & Hv & H & ->).
    apply In_dmap in H as (r' & E & Hr). injection E as <- <- <- <-.
    pose proof (In_dbind_intro _ _ _ _ _ _ Ha Hv) as Hin.
    destruct (is_dist_emb x (en_pos e i)) as [Db _].
    pose proof (pr_ge _ _ _ Db Hin). pose proof (proj1 Db _ _ Hin).
    apply In_dtab in Ha as [Ha ->].
    split; auto. split.
    - assert (en_pb e x (en_pos e i) a * p5 <> 0).
      { intros C. apply Hp. transitivity (p1 * p6 * (en_pb e x (en_pos e i) a * p5)). ring. rewrite C. ring. }
      lra.
    - eapply (en_embv e He); eauto.
  Qed.

  Lemma pr_dim_ge d v k : is_dist d -> pr d v <= pr_dim d k (nth k v 0%nat).
  Proof.
    intros Hd. unfold pr, pr_dim. apply expect_le. apply Hd. intros u p Hu.
    destruct (list_eq_dec Nat.eq_dec u v). subst. rewrite Nat.eqb_refl. lra.
    destruct (Nat.eqb _ _); lra.
  Qed.

  Lemma pr_dim_emb pi k c : sumn (en_K e) (fun a => pi a * pr_dim (en_emb e a) k c) = pr_dim (emb_under e pi) k c.
  Proof.
    unfold pr_dim, emb_under. rewrite expect_dbind, expect_dtab. apply sumn_ext. intros; ring.
  Qed.

  Lemma elog_accepted o p : In (o, p) (e_logs e) -> p <> 0 -> e_accepted (elog_of e o).
  Proof.
    intros Ho Hp.
    assert (HI : forall i, (i < en_n e)%nat -> exists x a v r, nth_error o i = Some (x, a, v, r) /\
      (a < en_K e)%nat /\ 0 < pr (emb_under e (en_pb e x (en_pos e i))) v /\
      length v = en_D e /\ (forall d, (d < en_D e)%nat -> (nth d v 0 < en_C e)%nat)).
    { intros i Hi. destruct (In_dprod_opt _ _ _ _ Ho Hp i Hi) as ([[[x a] v] r] & q & E & Hq & Hq0).
      exists x, a, v, r. split; auto. eapply In_eround; eauto. }
    constructor.
    - constructor; simpl.
      + apply He.
      + intros i Hi. destruct (HI i Hi) as (x & a & v & r & -> & Ha & _). auto.
      + intros i Hi. apply He; auto.
      + intros. lra.
      + intros i s Hi Hs. destruct (HI i Hi) as (x & a & v & r & -> & _). rewrite (en_pb1 e He).
        replace (1 - 1) with 0 by lra. rewrite Rabs_R0. pose proof tol_lt1; lra.
    - constructor; simpl.
      + apply He.
      + intros i Hi. destruct (HI i Hi) as (x & a & v & r & -> & Ha & _). auto.
      + intros i Hi. apply He; auto.
      + intros. lra.
      + intros i s Hi Hs. destruct (HI i Hi) as (x & a & v & r & -> & _). rewrite (en_pe1 e He).
        replace (1 - 1) with 0 by lra. rewrite Rabs_R0. pose proof tol_lt1; lra.
    - apply He.
    - intros i d Hi Hd. simpl. destruct (HI i Hi) as (x & a & v & r & -> & Ha & _ & _ & Hv). auto.
    - intros i d Hi Hd. unfold marg. cbn [elog_of el_K el_pos el_pib el_pea el_emb].
      destruct (HI i Hi) as (x & a & v & r & -> & Ha & Hpr & _ & Hv).
      rewrite (pr_dim_emb (en_pb e x (en_pos e i))). destruct (is_dist_emb x (en_pos e i)) as [Db _].
      pose proof (pr_dim_ge _ v d Db). lra.
  Qed.

  Lemma expect_eround i f : expect (e_round e i) (fun y => let '(x, a, v, r) := y in f x v r)
    = expect (en_ctx e i) (fun x => expect (emb_under e (en_pb e x (en_pos e i))) (fun v =>
        expect (en_rd e x (en_pos e i) v) (f x v))).
  Proof.
    unfold e_round. rewrite expect_dbind. apply expect_ext_all. intros x.
    unfold emb_under. rewrite !expect_dbind. apply expect_ext_all. intros a.
    rewrite expect_dbind. apply expect_ext_all. intros v. rewrite expect_dmap. reflexivity.
  Qed.

  Lemma spec_mipw_expect : emb_support e -> factorises e ->
    expect (e_logs e) (fun o => spec_mipw (elog_of e o)) = e_value e.
  Proof.
    intros Hs Hf.
    set (G := fun (i : nat) (y : option (X * nat * list nat * R)) => match y with
       | Some (x, a, v, r) => (fun x v r => pr (emb_under e (en_pe e x (en_pos e i))) v / pr (emb_under e (en_pb e x (en_pos e i))) v * r) x v r
       | None => 0 end).
    rewrite (expect_ext (e_logs e) _ (fun o => avg (en_n e) (fun i => G i (nth_error o i)))).
    2:{ intros o p Ho Hp. unfold spec_mipw. cbn [elog_of el_n]. apply avg_ext. intros i Hi.
        destruct (In_dprod_opt _ _ _ _ Ho Hp i Hi) as ([[[x a] v] r] & q & E & Hq & Hq0).
        destruct (In_eround _ _ _ _ _ _ Hq Hq0) as (Ha & Hpr & Hl & Hv).
        unfold e_weight, marg. cbn [elog_of el_K el_pos el_pib el_pie el_pea el_emb el_D el_r]. rewrite E. unfold G.
        rewrite (prodn_ext _ _ (fun d => pr_dim (emb_under e (en_pe e x (en_pos e i))) d (nth d v 0%nat)
                                       / pr_dim (emb_under e (en_pb e x (en_pos e i))) d (nth d v 0%nat))).
        2:{ intros d Hd. rewrite (pr_dim_emb (en_pe e x (en_pos e i))), (pr_dim_emb (en_pb e x (en_pos e i))). reflexivity. }
        destruct (Hf x (en_pos e i) v Hl) as [-> ->]. f_equal.
        apply (prodn_div (en_D e)). intros d Hd.
        destruct (is_dist_emb x (en_pos e i)) as [Db _]. pose proof (pr_dim_ge _ v d Db). lra. }
    unfold e_logs. rewrite expect_dprod_avg_opt by apply is_dist_eround.
    unfold e_value. apply avg_ext. intros i Hi. unfold G.
    rewrite (expect_eround i (fun x v r => pr (emb_under e (en_pe e x (en_pos e i))) v / pr (emb_under e (en_pb e x (en_pos e i))) v * r)).
    apply expect_ext_all. intros x. destruct (is_dist_emb x (en_pos e i)) as [Db De].
    rewrite (expect_ext_all _ _ (fun v => pr (emb_under e (en_pe e x (en_pos e i))) v / pr (emb_under e (en_pb e x (en_pos e i))) v
       * expect (en_rd e x (en_pos e i) v) (fun r => r))).
    2:{ intros v. rewrite expect_scal. reflexivity. }
    rewrite change_measure by auto. unfold emb_under. rewrite expect_dbind, expect_dtab.
    apply sumn_ext. intros; ring.
  Qed.

  Lemma one_dim_factorises : en_D e = 1%nat -> factorises e.
  Proof.
    intros HD x s v Hv. rewrite HD in *.
    assert (H : forall pi, pr (emb_under e pi) v = prodn 1 (fun d => pr_dim (emb_under e pi) d (nth d v 0%nat))).
    { intros pi. simpl. rewrite Rmult_1_l. unfold pr, pr_dim. apply expect_ext. intros u p Hu Hp.
      unfold emb_under in Hu. apply In_dbind in Hu as (a & p1 & p2 & Ha & Hu & _).
      apply In_dtab in Ha as [Ha _]. destruct (en_embv e He _ _ _ Ha Hu) as [Hl _]. rewrite HD in Hl.
      destruct u as [|u0 [|]]; try discriminate. destruct v as [|v0 [|]]; try discriminate. cbn [nth].
      destruct (list_eq_dec Nat.eq_dec [u0] [v0]) as [E|E].
      - injection E as ->. rewrite Nat.eqb_refl. reflexivity.
      - destruct (Nat.eqb u0 v0) eqn:E'; auto. apply Nat.eqb_eq in E'. congruence. }
    split; apply H.
  Qed.
End Unb.

(** ** Values *)

Lemma ec_rounds_ok l na fit : e_accepted l ->
  ec_rounds false (mkECall (e_rewards l) (e_actions l) (e_embeds l) (e_pib l) (e_pie l) (tabZ (el_n l) (el_pos l)) (Some (e_pea l)) na fit)
  = Ok (tabF (el_n l) (fun i => e_weight l i * el_r l i)).
Proof.
  intros H. unfold ec_rounds. cbn [ec_embed ec_pea]. rewrite ec_weights_ok by auto. cbn [bind ec_reward].
  unfold e_rewards. rewrite (bcast2_tabF nmul Rmult) by reflexivity. cbn [bind]. f_equal. apply tabF_ext. intros; ring.
Qed.

Lemma ec_rounds_sn_ok l na fit : e_accepted l -> sumn (el_n l) (e_weight l) <> 0 ->
  ec_rounds true (mkECall (e_rewards l) (e_actions l) (e_embeds l) (e_pib l) (e_pie l) (tabZ (el_n l) (el_pos l)) (Some (e_pea l)) na fit)
  = Ok (tabF (el_n l) (fun i => e_weight l i * el_r l i / avg (el_n l) (e_weight l))).
Proof.
  intros H Hs. destruct (e_dims l H) as (Hn & _). unfold ec_rounds. cbn [ec_embed ec_pea]. rewrite ec_weights_ok by auto. cbn [bind ec_reward].
  unfold e_rewards. rewrite (bcast2_tabF nmul Rmult) by reflexivity. cbn [bind]. f_equal.
  rewrite nmean_tabF by auto.
  rewrite (map_tabF _ (fun x => x / avg (el_n l) (e_weight l))).
  - apply tabF_ext. intros. f_equal. ring.
  - intros i Hi. apply ndiv_Fin. unfold avg. pose proof (INR_pos _ Hn). intros C.
    apply Hs. apply Rmult_eq_reg_r with (/ INR (el_n l)). rewrite Rmult_0_l. exact C.
    apply Rinv_neq_0_compat. lra.
Qed.

(** ** Estimated weights *)

Lemma increasing_sorted U : increasing U -> StronglySorted Z.lt (map Z.of_nat U).
Proof.
  induction 1; simpl; constructor; auto. apply Forall_forall. intros z Hz.
  apply in_map_iff in Hz as (y & <- & Hy). specialize (H y Hy). lia.
Qed.

Lemma sorted_eq (a b : list Z) : StronglySorted Z.lt a -> StronglySorted Z.lt b ->
  (forall z, In z a <-> In z b) -> a = b.
Proof.
  revert b. induction a as [|x a IH]; intros b Ha Hb H.
  - destruct b as [|y b]; auto. destruct (proj2 (H y)); simpl; auto.
  - destruct b as [|y b]. destruct (proj1 (H x)); simpl; auto.
    inversion Ha as [|? ? Ha1 Ha2]; inversion Hb as [|? ? Hb1 Hb2]; subst.
    rewrite Forall_forall in Ha2, Hb2.
    assert (x = y).
    { destruct (proj1 (H x)) as [E|E]; simpl; auto.
      destruct (proj2 (H y)) as [E'|E']; simpl; auto.
      specialize (Ha2 _ E'). specialize (Hb2 _ E). lia. }
    subst y. f_equal. apply IH; auto. intros z. split; intros Hz.
    + destruct (proj1 (H z)) as [E|E]; simpl; auto. subst z. specialize (Ha2 _ Hz). lia.
    + destruct (proj2 (H z)) as [E|E]; simpl; auto. subst z. specialize (Hb2 _ Hz). lia.
Qed.

Lemma unique_logged l U : logged_actions l U -> np_unique (e_actions l) = map Z.of_nat U.
Proof.
  intros [H1 H2]. apply sorted_eq. apply np_unique_sorted. apply increasing_sorted; auto.
  intros z. rewrite np_unique_In. unfold e_actions, tabZ. rewrite In_tab, in_map_iff. split.
  - intros (i & Hi & <-). exists (el_a l i). split; auto. apply H2. eauto.
  - intros (a & <- & Ha). apply H2 in Ha as (i & Hi & <-). eauto.
Qed.

(** Writing [v] at the indices [U] of a row. *)
Fixpoint writes (f : nat -> R) (U : list nat) (g : nat -> R) : nat -> R :=
  match U with [] => f | u :: U' => writes (fun a => if Nat.eqb a u then g u else f a) U' g end.

Lemma scatter_tab K U g : (forall u, In u U -> (u < K)%nat) -> forall f,
  scatter (tabF K f) (map Z.of_nat U) (map (fun u => Fin (g u)) U) = Ok (tabF K (writes f U g)).
Proof.
  induction U as [|u U IH]; intros HU f; simpl. reflexivity.
  unfold tabF at 1. rewrite np_set_tab by (apply HU; simpl; auto). cbn [bind].
  rewrite <- IH by (intros; apply HU; simpl; auto). f_equal. unfold tabF. apply tab_ext. intros a Ha.
  destruct (Nat.eqb a u); reflexivity.
Qed.

Lemma writes_out U g : forall f a, ~ In a U -> writes f U g a = f a.
Proof.
  induction U as [|u U IH]; simpl; intros f a H; auto. rewrite IH by tauto.
  destruct (Nat.eqb a u) eqn:E; auto. apply Nat.eqb_eq in E. subst. tauto.
Qed.
Lemma writes_in U g : NoDup U -> forall f a, In a U -> writes f U g a = g a.
Proof.
  induction 1 as [|u U Hu Hn IH]; simpl; intros f a H. tauto.
  destruct H as [->|H].
  - rewrite writes_out by auto. rewrite Nat.eqb_refl. reflexivity.
  - apply IH; auto.
Qed.

Lemma sum_over K U h g : NoDup U -> (forall u, In u U -> (u < K)%nat) ->
  sumn K (fun a => h a * writes (fun _ => 0) U g a) = lsumf U (fun a => h a * g a).
Proof.
  intros Hn HU.
  transitivity (lsumf U (fun u => sumn K (fun a => if Nat.eqb a u then h a * g a else 0))).
  - assert (E : forall a, (a < K)%nat -> h a * writes (fun _ => 0) U g a = lsumf U (fun u => if Nat.eqb a u then h a * g a else 0)).
    { intros a Ha. destruct (in_dec Nat.eq_dec a U) as [Hin|Hout].
      - rewrite writes_in by auto. clear HU. induction Hn as [|u U Hu Hn IH]; simpl in *. tauto.
        destruct Hin as [->|Hin].
        + rewrite Nat.eqb_refl. rewrite lsumf_zero. lra. intros v Hv. destruct (Nat.eqb a v) eqn:E; auto.
          apply Nat.eqb_eq in E. subst. tauto.
        + destruct (Nat.eqb a u) eqn:E. apply Nat.eqb_eq in E. subst. tauto. rewrite <- IH by auto. lra.
      - rewrite writes_out by auto. rewrite lsumf_zero. lra. intros v Hv. destruct (Nat.eqb a v) eqn:E; auto.
        apply Nat.eqb_eq in E. subst. tauto. }
    rewrite (sumn_ext _ _ _ E). clear E HU Hn. induction U; simpl. apply sumn_zero; auto. rewrite sumn_plus, IHU. reflexivity.
  - apply lsumf_ext. intros u Hu. specialize (HU u Hu). clear - HU. induction K; [lia|]. simpl.
    destruct (Nat.eq_dec u K) as [->|Hn].
    + rewrite Nat.eqb_refl. rewrite sumn_zero. lra. intros i Hi. destruct (Nat.eqb i K) eqn:E; auto. apply Nat.eqb_eq in E. lia.
    + rewrite IHK by lia. destruct (Nat.eqb K u) eqn:E. apply Nat.eqb_eq in E. lia. lra.
Qed.

Lemma keep_finite_ratio l i a : 0 <= el_pie l i a (el_pos l i) ->
  (let w := ndiv (Fin (el_pie l i a (el_pos l i))) (Fin (el_pib l i a (el_pos l i))) in
   if nlt w PInf then w else Fin 0) = Fin (ratio l i a).
Proof.
  intros H. unfold ratio. destruct (Req_EM_T _ 0) as [E|E].
  - rewrite E. cbv zeta. destruct (Req_EM_T (el_pie l i a (el_pos l i)) 0) as [Ez|Ez].
    + rewrite Ez, ndiv_0_0. reflexivity.
    + assert (Hd : ndiv (Fin (el_pie l i a (el_pos l i))) (Fin 0) = PInf) by (simpl; unfold inf_sign; rdec; auto; lra).
      rewrite Hd. reflexivity.
  - rewrite ndiv_Fin by auto. reflexivity.
Qed.

Lemma w_est_ok l U post fit : e_accepted l -> logged_actions l U ->
  (forall i a, (i < el_n l)%nat -> (a < el_K l)%nat -> 0 <= el_pie l i a (el_pos l i)) ->
  fit (e_embeds l) = tab (el_n l) (fun i => map (fun a => Fin (post i a)) U) ->
  w_est (el_K l) fit (e_actions l) (e_pib l) (e_pie l) (e_embeds l) (tabZ (el_n l) (el_pos l)) (el_n l)
  = Ok (tabF (el_n l) (est_weight l U post)).
Proof.
  intros H HU Hp Hfit. unfold w_est.
  unfold e_pie at 1, e_pib at 1.
  rewrite fancy3_row_tab by (intros i Hi; apply (acc_pos _ (ea_b l H) i Hi)). cbn [bind].
  rewrite fancy3_row_tab by (intros i Hi; apply (acc_pos _ (ea_b l H) i Hi)). cbn [bind].
  unfold tab2F. rewrite combine_tab.
  rewrite (mapM_tab (el_n l) _ _ (fun i => tab (el_K l) (fun a => ndiv (Fin (el_pie l i a (el_pos l i))) (Fin (el_pib l i a (el_pos l i)))))).
  2:{ intros i Hi. unfold tabF. apply bcast2_tab. }
  cbn [bind]. rewrite map_tab.
  rewrite Hfit, tab_length. unfold e_actions at 1, tabZ. rewrite tab_length, Nat.eqb_refl. cbn [negb raise_if bind].
  rewrite (unique_logged l U HU).
  assert (HUK : forall u, In u U -> (u < el_K l)%nat).
  { intros u Hu. apply HU in Hu as (i & Hi & <-). apply (acc_a _ (ea_b l H) i Hi). }
  assert (HUn : NoDup U).
  { destruct HU as [HU _]. clear - HU. induction HU; constructor; auto. intros C. specialize (H x C). lia. }
  rewrite (mapM_tab (el_n l) _ _ (fun i => tabF (el_K l) (writes (fun _ => 0) U (post i)))).
  2:{ intros i Hi. rewrite repeat_tab. apply (scatter_tab (el_K l) U (post i) HUK (fun _ => 0)). }
  cbn [bind]. rewrite combine_tab.
  rewrite (mapM_tab (el_n l) _ _ (fun i => tabF (el_K l) (fun a => ratio l i a * writes (fun _ => 0) U (post i) a))).
  2:{ intros i Hi. cbn [fst snd]. rewrite map_tab. unfold tabF. rewrite bcast2_tab. f_equal. apply tab_ext.
      intros a Ha. pose proof (keep_finite_ratio l i a (Hp i a Hi Ha)) as E. cbv zeta in E. rewrite E. reflexivity. }
  cbn [bind]. rewrite map_tab. f_equal. unfold tabF at 2. apply tab_ext. intros i Hi. rewrite nsum_tabF. f_equal.
  apply sum_over; auto.
Qed.

(** A calibrated classifier gives the ratio of marginals of the whole embedding vector. *)
Lemma est_weight_calibrated l U post Q i : logged_actions l U ->
  (forall a, In a U -> (a < el_K l)%nat) ->
  (forall a, (a < el_K l)%nat -> el_pib l i a (el_pos l i) <> 0 -> In a U) ->
  (forall a, (a < el_K l)%nat -> el_pib l i a (el_pos l i) = 0 -> el_pie l i a (el_pos l i) * Q a = 0) ->
  sumn (el_K l) (fun a => el_pib l i a (el_pos l i) * Q a) <> 0 ->
  (forall a, In a U -> post i a = el_pib l i a (el_pos l i) * Q a / sumn (el_K l) (fun b => el_pib l i b (el_pos l i) * Q b)) ->
  est_weight l U post i = sumn (el_K l) (fun a => el_pie l i a (el_pos l i) * Q a) / sumn (el_K l) (fun a => el_pib l i a (el_pos l i) * Q a).
Proof.
  intros HU HUK Hin Hz Hne Hpost.
  assert (HUn : NoDup U).
  { destruct HU as [HU _]. clear - HU. induction HU; constructor; auto. intros C. specialize (H x C). lia. }
  set (M := sumn (el_K l) (fun a => el_pib l i a (el_pos l i) * Q a)) in *.
  change (est_weight l U post i) with (lsumf U (fun a => ratio l i a * post i a)).
  rewrite <- (sum_over (el_K l) U (ratio l i) (post i) HUn HUK).
  rewrite <- sumn_div. apply sumn_ext. intros a Ha.
  destruct (Req_EM_T (el_pib l i a (el_pos l i)) 0) as [E|E].
  - unfold ratio. destruct (Req_EM_T _ 0); [|tauto]. rewrite (Hz a Ha E). unfold Rdiv. ring.
  - rewrite writes_in by auto. rewrite Hpost by auto. fold M. unfold ratio. destruct (Req_EM_T _ 0); [tauto|]. field. auto.
Qed.
