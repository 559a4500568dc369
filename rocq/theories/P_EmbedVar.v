(** * P_EmbedVar: marginal importance weights never have a larger mean squared error than vanilla ones (C136). *)

From Coq Require Import Reals List ZArith Lia Lra Bool.
From Verif Require Import Num NpList M_Utils M_Estimators M_Embed S_Base S_Prob S_Estimators S_Embed S_Tuning
  L_Num L_Base L_Prob L_Estimators L_Unbiased L_Conc L_Embed L_EmbedUnb L_Examples P_Embed P_Risk.
Import ListNotations.
Open Scope R_scope.

Section Round.
  Context {X : Type} (e : eenv X) (He : eenv_ok e).
  Hypothesis Hsupp : forall x s a, (a < en_K e)%nat -> 0 < en_pe e x s a -> 0 < en_pb e x s a.

  Let W (i : nat) x v := pr (emb_under e (en_pe e x (en_pos e i))) v / pr (emb_under e (en_pb e x (en_pos e i))) v.
  Let w (i : nat) x a := en_pe e x (en_pos e i) a / en_pb e x (en_pos e i) a.
  Definition marg_term (i : nat) (y : X * nat * list nat * R) : R := let '(x, _, v, r) := y in W i x v * r.
  Definition ipw_eterm (i : nat) (y : X * nat * list nat * R) : R := let '(x, a, _, r) := y in w i x a * r.

  Lemma expect_eround_gen i (f : X -> nat -> list nat -> R -> R) : expect (e_round e i) (fun y => let '(x, a, v, r) := y in f x a v r)
    = expect (en_ctx e i) (fun x => sumn (en_K e) (fun a => expect (en_emb e a) (fun v => expect (en_rd e x (en_pos e i) v) (f x a v)) * en_pb e x (en_pos e i) a)).
  Proof.
    unfold e_round. rewrite expect_dbind. apply expect_ext_all. intros x. rewrite expect_dbind, expect_dtab. apply sumn_ext. intros a Ha. f_equal.
    rewrite expect_dbind. apply expect_ext_all. intros v. rewrite expect_dmap. reflexivity.
  Qed.

  Lemma w_cancels i x a : (a < en_K e)%nat -> en_pb e x (en_pos e i) a * w i x a = en_pe e x (en_pos e i) a.
  Proof.
    intros Ha. unfold w. destruct (Rle_lt_or_eq_dec 0 _ (en_pe0 e He x (en_pos e i) a Ha)) as [Hp|Hz].
    - pose proof (Hsupp x (en_pos e i) a Ha Hp). field. lra.
    - rewrite <- Hz. unfold Rdiv. ring.
  Qed.

  Lemma emb_support_of : emb_support e.
  Proof.
    intros x s v Hpos. destruct (is_dist_emb e He x s) as [Db De].
    destruct (Rle_lt_or_eq_dec 0 _ (pr_nonneg _ v Db)) as [|Z]; auto. exfalso.
    assert (E : forall pi, pr (emb_under e pi) v = sumn (en_K e) (fun a => pr (en_emb e a) v * pi a)).
    { intros pi. unfold pr, emb_under. rewrite expect_dbind, expect_dtab. reflexivity. }
    rewrite E in Hpos, Z. symmetry in Z. revert Hpos. apply Rle_not_lt. right. apply sumn_zero. intros a Ha.
    assert (Hn : forall b, (b < en_K e)%nat -> 0 <= pr (en_emb e b) v * en_pb e x s b).
    { intros b Hb. apply Rmult_le_pos; [apply pr_nonneg; apply He; auto|apply He; auto]. }
    pose proof (sumn_zero_inv _ _ Hn Z a Ha) as Ea. apply Rmult_integral in Ea as [->|Eb]; [ring|].
    destruct (Rle_lt_or_eq_dec 0 _ (en_pe0 e He x s a Ha)) as [Hp|Hz]; [pose proof (Hsupp x s a Ha Hp); lra|rewrite <- Hz; ring].
  Qed.

  Lemma change_emb i x q : expect (emb_under e (en_pb e x (en_pos e i))) (fun v => W i x v * q v) = expect (emb_under e (en_pe e x (en_pos e i))) q.
  Proof. destruct (is_dist_emb e He x (en_pos e i)) as [Db De]. unfold W. apply change_measure; auto. apply emb_support_of. Qed.

  Lemma expect_emb pi q : expect (emb_under e pi) q = sumn (en_K e) (fun a => expect (en_emb e a) q * pi a).
  Proof. unfold emb_under. rewrite expect_dbind, expect_dtab. reflexivity. Qed.

  Definition round_target i := expect (en_ctx e i) (fun x => sumn (en_K e) (fun a => en_pe e x (en_pos e i) a *
      expect (en_emb e a) (fun v => expect (en_rd e x (en_pos e i) v) (fun r => r)))).

  Lemma marg_mean i : expect (e_round e i) (marg_term i) = round_target i.
  Proof.
    rewrite (expect_ext_all _ _ (fun y => let '(x, a, v, r) := y in (fun x v r => W i x v * r) x v r)) by (intros [[[x a] v] r]; reflexivity).
    rewrite expect_eround. apply expect_ext_all. intros x. rewrite (expect_ext_all _ _ (fun v => W i x v * expect (en_rd e x (en_pos e i) v) (fun r => r))) by (intros v; apply expect_scal).
    rewrite change_emb, expect_emb. apply sumn_ext. intros; ring.
  Qed.
  Lemma ipw_emean i : expect (e_round e i) (ipw_eterm i) = round_target i.
  Proof.
    rewrite (expect_ext_all _ _ (fun y => let '(x, a, v, r) := y in (fun x a (_ : list nat) r => w i x a * r) x a v r)) by (intros [[[x a] v] r]; reflexivity).
    rewrite expect_eround_gen. apply expect_ext_all. intros x. apply sumn_ext. intros a Ha.
    rewrite (expect_ext_all _ _ (fun v => w i x a * expect (en_rd e x (en_pos e i) v) (fun r => r))) by (intros v; apply expect_scal).
    rewrite expect_scal, <- (w_cancels i x a Ha). ring.
  Qed.

  (** The second moment can only shrink when the weight is replaced by its conditional mean given the embedding. *)
  Lemma marg_moment i : (i < en_n e)%nat ->
    expect (e_round e i) (fun y => marg_term i y * marg_term i y) <= expect (e_round e i) (fun y => ipw_eterm i y * ipw_eterm i y).
  Proof.
    intros Hi. pose proof (is_dist_eround e He i Hi) as HD.
    set (A := expect (e_round e i) (fun y => marg_term i y * marg_term i y)).
    assert (C : expect (e_round e i) (fun y => ipw_eterm i y * marg_term i y) = A).
    { unfold A.
      rewrite (expect_ext_all _ (fun y => ipw_eterm i y * marg_term i y) (fun y => let '(x, a, v, r) := y in (fun x a v r => w i x a * (W i x v * (r * r))) x a v r)) by (intros [[[x a] v] r]; unfold ipw_eterm, marg_term; ring).
      rewrite (expect_ext_all _ (fun y => marg_term i y * marg_term i y) (fun y => let '(x, a, v, r) := y in (fun x v r => W i x v * (W i x v * (r * r))) x v r)) by (intros [[[x a] v] r]; unfold marg_term; ring).
      rewrite expect_eround_gen, expect_eround. apply expect_ext_all. intros x.
      rewrite (expect_ext_all (emb_under e _) _ (fun v => W i x v * (W i x v * expect (en_rd e x (en_pos e i) v) (fun r => r * r)))) by (intros v; rewrite !expect_scal; reflexivity).
      rewrite (change_emb i x (fun v => W i x v * expect (en_rd e x (en_pos e i) v) (fun r => r * r))), expect_emb. apply sumn_ext. intros a Ha.
      rewrite (expect_ext_all (en_emb e a) (fun v => expect _ (fun r => w i x a * _)) (fun v => w i x a * (W i x v * expect (en_rd e x (en_pos e i) v) (fun r => r * r)))) by (intros v; rewrite !expect_scal; reflexivity).
      rewrite expect_scal, <- (w_cancels i x a Ha). ring. }
    apply (Rle_trans _ (expect (e_round e i) (fun y => 2 * (ipw_eterm i y * marg_term i y) - marg_term i y * marg_term i y))).
    - rewrite expect_minus, expect_scal, C. fold A. lra.
    - apply expect_le_supp; auto. intros y p _ _. pose proof (Rle_0_sqr (ipw_eterm i y - marg_term i y)) as H. unfold Rsqr in H. lra.
  Qed.
End Round.

(** No direct effect of the action, dimensions independent under both policies, common support of the actions: MIPW and IPW
    are both unbiased, and the mean squared error of MIPW is at most that of IPW. *)
Theorem C136_mipw_mse : forall X (e : eenv X) arg m argsort T, eenv_ok e -> factorises e ->
  (forall x s a, (a < en_K e)%nat -> 0 < en_pe e x s a -> 0 < en_pb e x s a) ->
  (forall o, position_arg (as_log (elog_of e o)) arg) ->
  exists mipw ipw : list (X * nat * list nat * R) -> R,
    (forall o p, In (o, p) (e_logs e) -> p <> 0 -> let l := elog_of e o in
       value_on false None m argsort T l arg = Ok (Fin (mipw o)) /\
       ipw_value PInf false (rewards (as_log l)) (actions (as_log l)) (policy (as_log l)) (Some (pscores (as_log l))) arg None = Ok (Fin (ipw o))) /\
    expect (e_logs e) mipw = e_value e /\ expect (e_logs e) ipw = e_value e /\
    let mse est := expect (e_logs e) (fun o => (est o - e_value e) * (est o - e_value e)) in
    mse mipw <= mse ipw.
Proof.
  intros X e arg m argsort T He Hf Hs Harg. assert (Hn : (0 < en_n e)%nat) by apply He. assert (HN : 0 < INR (en_n e)) by (apply lt_0_INR; auto).
  assert (HD : forall i, (i < en_n e)%nat -> is_dist (e_round e i)) by (intros; apply is_dist_eround; auto).
  assert (HP : is_dist (e_logs e)) by (apply is_dist_dprod; auto).
  set (opt := fun (f : nat -> X * nat * list nat * R -> R) (o : list (X * nat * list nat * R)) (i : nat) => match nth_error o i with Some y => f i y | None => 0 end).
  exists (fun o => avg (en_n e) (opt (marg_term e) o)), (fun o => avg (en_n e) (opt (ipw_eterm e) o)).
  assert (Means : forall f, (forall i, expect (e_round e i) (f i) = round_target e i) ->
     expect (e_logs e) (fun o => avg (en_n e) (opt f o)) = e_value e /\
     expect (e_logs e) (fun o => (avg (en_n e) (opt f o) - e_value e) * (avg (en_n e) (opt f o) - e_value e))
       = avg (en_n e) (fun i => expect (e_round e i) (fun y => f i y * f i y) - round_target e i * round_target e i) / INR (en_n e)).
  { intros f Hm. assert (M : avg (en_n e) (fun i => expect (e_round e i) (f i)) = e_value e) by (apply avg_ext; intros i Hi; apply Hm).
    pose proof (mean_avg (en_n e) (e_round e) f HD) as M1. pose proof (mean_square (en_n e) (e_round e) f Hn HD) as M2. rewrite M in M1, M2.
    assert (M1' : expect (e_logs e) (fun o => avg (en_n e) (opt f o)) = e_value e) by exact M1. split; [exact M1'|].
    rewrite (expect_ext_all _ _ (fun o => avg (en_n e) (opt f o) * avg (en_n e) (opt f o) - 2 * e_value e * avg (en_n e) (opt f o) + e_value e * e_value e)) by (intros; ring).
    rewrite expect_plus, expect_minus, expect_scal, expect_const, M1' by auto. unfold e_logs, opt. rewrite M2.
    replace (avg (en_n e) (fun i => expect (e_round e i) (fun y => f i y * f i y) - round_target e i * round_target e i))
      with (avg (en_n e) (fun i => expect (e_round e i) (fun y => (f i y - expect (e_round e i) (f i)) * (f i y - expect (e_round e i) (f i))))); [field; lra|].
    apply avg_ext. intros i Hi. rewrite (var_split (en_n e) (e_round e) f HD i Hi), Hm. ring. }
  destruct (Means (marg_term e) (fun i => marg_mean e He Hs i)) as [A1 A2]. destruct (Means (ipw_eterm e) (fun i => ipw_emean e He Hs i)) as [B1 B2].
  split; [|split; [exact A1|split; [exact B1|]]].
  - intros o p Ho Hp l. assert (Hacc : e_accepted l) by (eapply elog_accepted; eauto). split.
    + rewrite (value_ok None m argsort T l arg Hacc (Harg o) (or_introl eq_refl)). unfold spec_mipw. do 2 f_equal. apply avg_ext. intros i Hi.
      destruct (In_dprod_opt _ _ _ _ Ho Hp i Hi) as ([[[x a] v] r] & q & E & Hq & Hq0).
      destruct (In_eround e He _ _ _ _ _ _ Hq Hq0) as (Ha & Hpr & Hl & Hv).
      unfold e_weight, marg, opt, marg_term. cbn [elog_of el_K el_pos el_pib el_pie el_pea el_emb el_D el_r l]. rewrite E.
      rewrite (prodn_ext _ _ (fun d => pr_dim (emb_under e (en_pe e x (en_pos e i))) d (nth d v 0%nat)
                                     / pr_dim (emb_under e (en_pb e x (en_pos e i))) d (nth d v 0%nat))).
      2:{ intros d Hd. rewrite (pr_dim_emb e (en_pe e x (en_pos e i))), (pr_dim_emb e (en_pb e x (en_pos e i))). reflexivity. }
      destruct (Hf x (en_pos e i) v Hl) as [-> ->]. f_equal. apply (prodn_div (en_D e)). intros d Hd.
      destruct (is_dist_emb e He x (en_pos e i)) as [Db _]. pose proof (pr_dim_ge _ v d Db). lra.
    + assert (HI : forall i, (i < en_n e)%nat -> exists x a v r, nth_error o i = Some (x, a, v, r) /\ (a < en_K e)%nat /\ 0 < en_pb e x (en_pos e i) a).
      { intros i Hi. destruct (In_dprod_opt _ _ _ _ Ho Hp i Hi) as ([[[x a] v] r] & q & E & Hq & Hq0). exists x, a, v, r. split; [exact E|].
        unfold e_round in Hq. apply In_dbind in Hq as (x' & p1 & p2 & Hx & H & ->). apply In_dbind in H as (a' & p3 & p4 & Ha & H & ->).
        apply In_dbind in H as (v' & p5 & p6 & Hv & H & ->). apply In_dmap in H as (r' & E' & Hr). injection E' as <- <- <- <-.
        apply In_dtab in Ha as [Ha ->]. split; [auto|]. destruct (Rle_lt_or_eq_dec 0 _ (en_pb0 e He x (en_pos e i) a Ha)) as [|Z]; auto.
        exfalso. apply Hq0. rewrite <- Z. ring. }
      assert (Hal : accepted (as_log l)).
      { destruct (ea_e l Hacc) as [H1 H2 H3 H4 H5]. constructor; auto. intros i Hi. destruct (HI i Hi) as (x & a & v & r & E & Ha & Hb).
        cbn [as_log plain lg_p l elog_of el_pib el_a el_pos]. rewrite E. exact Hb. }
      pose proof (ipw_value_ok None false (as_log l) arg (Some (pscores (as_log l))) None Hal (Harg o) eq_refl) as E. simpl lam_num in E. rewrite E.
      do 2 f_equal. unfold spec_ipw. apply avg_ext. intros i Hi. destruct (HI i Hi) as (x & a & v & r & Ei & Ha & Hb).
      unfold opt, ipw_eterm, weight, clip. cbn [as_log plain lg_p lg_r lg_pi lg_a lg_pos l elog_of el_pib el_pie el_a el_pos el_r]. rewrite Ei. ring.
  - intros mse. unfold mse. rewrite A2, B2. unfold Rdiv. apply Rmult_le_compat_r; [left; apply Rinv_0_lt_compat; auto|]. apply avg_le; auto.
    intros i Hi. pose proof (marg_moment e He Hs i Hi). lra.
Qed.

(** Two actions with the same embedding and reward one: MIPW makes no error, IPW has mean squared error 1/3. *)
Definition var_env : eenv unit := {|
  en_n := 1; en_K := 2; en_L := 1; en_C := 1; en_D := 1; en_pos := fun _ => 0%nat;
  en_ctx := fun _ => [(tt, 1)];
  en_pb := fun x s a => nth a [1/4; 3/4] 0;
  en_pe := fun x s a => nth a [1/2; 1/2] 0;
  en_emb := fun a => [([0%nat], 1)];
  en_rd := fun x s v => [(1, 1)] |}.
Example C136_case : eenv_ok var_env /\ factorises var_env /\
  (forall x s a, (a < en_K var_env)%nat -> 0 < en_pe var_env x s a -> 0 < en_pb var_env x s a) /\
  (forall o, position_arg (as_log (elog_of var_env o)) None) /\ e_value var_env = 1 /\
  expect (e_logs var_env) (fun o => (spec_mipw (elog_of var_env o) - 1) * (spec_mipw (elog_of var_env o) - 1)) = 0 /\
  expect (e_logs var_env) (fun o => (spec_ipw None (as_log (elog_of var_env o)) - 1) * (spec_ipw None (as_log (elog_of var_env o)) - 1)) = 1/3.
Proof.
  assert (Hok : eenv_ok var_env).
  { constructor; simpl; intros; try lia; try lra; try (idx a; simpl; lra || lia); try isd.
    destruct H0 as [[= <- <-]|[]]. split; auto. intros d Hd. idx d; simpl; lia. }
  split; [exact Hok|]. split; [apply one_dim_factorises; auto|]. repeat split.
  - intros x s a Ha _. simpl in *. idx a; simpl; lra || lia.
  - intros o. right. simpl. auto.
  - unfold e_value, avg. cbn. lra.
  - unfold spec_mipw, e_weight, marg, avg, prodn. cbn. field.
  - unfold spec_ipw, weight, clip, avg. cbn. field.
Qed.

Print Assumptions C136_mipw_mse.
