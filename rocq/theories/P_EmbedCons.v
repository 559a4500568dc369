(** * P_EmbedCons: consistency of the marginalised estimators (C173). *)

From Coq Require Import Reals List ZArith Lia Lra Bool.
From Verif Require Import Num NpList M_Utils M_Estimators M_Embed S_Base S_Prob S_Conc S_Estimators S_Embed
  L_Num L_Base L_Prob L_Estimators L_Unbiased L_Conc L_Conc3 L_Embed L_EmbedUnb L_Examples P_SlateSN P_Embed P_EmbedVar P_Bias P_MultiCons P_Conc2.
Import ListNotations.
Open Scope R_scope.

Section Marg.
  Context {X : Type} (e : eenv X) (He : eenv_ok e) (W Rm : R).
  Hypothesis HW : forall x s v, pr (emb_under e (en_pe e x s)) v <= W * pr (emb_under e (en_pb e x s)) v.
  Hypothesis HR : forall x s v r p, In (r, p) (en_rd e x s v) -> p <> 0 -> Rabs r <= Rm.
  Let mw (i : nat) x v := pr (emb_under e (en_pe e x (en_pos e i))) v / pr (emb_under e (en_pb e x (en_pos e i))) v.

  Lemma marg_support : emb_support e.
  Proof.
    intros x s v H. destruct (is_dist_emb e He x s) as [Db _]. pose proof (HW x s v).
    destruct (Rle_lt_or_eq_dec 0 _ (pr_nonneg _ v Db)) as [|Z]; auto. rewrite <- Z in H0. lra.
  Qed.

  Lemma mw_range i x v : 0 <= mw i x v /\ mw i x v * mw i x v <= W * mw i x v.
  Proof.
    destruct (is_dist_emb e He x (en_pos e i)) as [Db De]. pose proof (HW x (en_pos e i) v) as H. unfold mw.
    pose proof (pr_nonneg _ v De) as P. destruct (Rle_lt_or_eq_dec 0 _ (pr_nonneg _ v Db)) as [Q|Z].
    - set (b := pr (emb_under e (en_pb e x (en_pos e i))) v) in *. set (t := pr (emb_under e (en_pe e x (en_pos e i))) v) in *.
      assert (0 <= t / b) by (apply Rmult_le_pos; [lra|left; apply Rinv_0_lt_compat; lra]). split; [auto|].
      apply Rmult_le_compat_r; [auto|]. apply (Rmult_le_reg_r b); [lra|]. unfold Rdiv. rewrite Rmult_assoc, Rinv_l by lra. lra.
    - rewrite <- Z in H. assert (E : pr (emb_under e (en_pe e x (en_pos e i))) v = 0) by lra. rewrite E. unfold Rdiv. rewrite Rmult_0_l. lra.
  Qed.

  Lemma mw_change i x q : expect (emb_under e (en_pb e x (en_pos e i))) (fun v => mw i x v * q v) = expect (emb_under e (en_pe e x (en_pos e i))) q.
  Proof. destruct (is_dist_emb e He x (en_pos e i)) as [Db De]. unfold mw. apply change_measure; auto. apply marg_support. Qed.

  Lemma W_nonneg (x : X) : 0 <= W.
  Proof.
    destruct (Rle_dec 0 W) as [|N]; auto. exfalso. destruct (is_dist_emb e He x (en_pos e 0)) as [Db De].
    pose proof (mw_change 0 x (fun _ => 1)) as E. rewrite (expect_const _ 1) in E by auto.
    assert (expect (emb_under e (en_pb e x (en_pos e 0))) (fun v => mw 0 x v * 1) <= expect (emb_under e (en_pb e x (en_pos e 0))) (fun _ => 0)).
    { apply expect_le_supp; auto. intros v p _ _. destruct (mw_range 0 x v). nra. }
    rewrite (expect_const _ 0) in H by auto. lra.
  Qed.

  Lemma mw_mean i g : expect (e_round e i) (fun y => let '(x, a, v, r) := y in mw i x v * g x v r)
    = expect (en_ctx e i) (fun x => expect (emb_under e (en_pe e x (en_pos e i))) (fun v => expect (en_rd e x (en_pos e i) v) (g x v))).
  Proof.
    rewrite (expect_eround e i (fun x v r => mw i x v * g x v r)). apply expect_ext_all. intros x.
    rewrite <- mw_change. apply expect_ext_all. intros v. apply expect_scal.
  Qed.

  Lemma mw_moment i g B : (i < en_n e)%nat -> 0 <= B -> (forall x v r p, In (r, p) (en_rd e x (en_pos e i) v) -> p <> 0 -> Rabs (g x v r) <= B) ->
    expect (e_round e i) (fun y => (let '(x, a, v, r) := y in mw i x v * g x v r) * (let '(x, a, v, r) := y in mw i x v * g x v r)) <= W * (B * B).
  Proof.
    intros Hi HB Hg. pose proof (is_dist_eround e He i Hi) as HD.
    rewrite (expect_ext_all _ _ (fun y => let '(x, a, v, r) := y in mw i x v * ((fun x v r => mw i x v * (g x v r * g x v r)) x v r))) by (intros [[[x a] v] r]; ring).
    rewrite (mw_mean i (fun x v r => mw i x v * (g x v r * g x v r))). assert (Dc : is_dist (en_ctx e i)) by (apply He; auto).
    rewrite <- (expect_const (en_ctx e i) (W * (B * B))) by auto. apply expect_le_supp; auto. intros x p _ _.
    pose proof (W_nonneg x) as W0. destruct (is_dist_emb e He x (en_pos e i)) as [Db De].
    rewrite <- mw_change.
    apply (Rle_trans _ (expect (emb_under e (en_pb e x (en_pos e i))) (fun v => mw i x v * (W * (B * B))))).
    - apply expect_le_supp; auto. intros v q _ _. rewrite expect_scal. destruct (mw_range i x v) as [M0 M1].
      assert (Q : 0 <= expect (en_rd e x (en_pos e i) v) (fun r => g x v r * g x v r) <= B * B).
      { assert (Dr : is_dist (en_rd e x (en_pos e i) v)) by apply He. split.
        - rewrite <- (expect_const (en_rd e x (en_pos e i) v) 0) by auto. apply expect_le_supp; auto. intros r p' _ _. apply Rle_0_sqr.
        - rewrite <- (expect_const (en_rd e x (en_pos e i) v) (B * B)) by auto. apply expect_le_supp; auto. intros r p' Hr Hp'. apply sq_le; auto. eapply Hg; eauto. }
      set (q' := expect _ _) in *. clearbody q'. set (z := mw i x v) in *. clearbody z. rewrite <- Rmult_assoc.
      apply (Rle_trans _ (W * z * q')); [apply Rmult_le_compat_r; lra|]. replace (z * (W * (B * B))) with (W * z * (B * B)) by ring.
      apply Rmult_le_compat_l; [apply Rmult_le_pos; auto|lra].
    - rewrite (mw_change i x (fun _ => W * (B * B))), expect_const by auto. lra.
  Qed.

  Lemma Rm_pos : 0 <= Rm.
  Proof.
    assert (Hi : (0 < en_n e)%nat) by apply He. pose proof (en_ctxd e He 0%nat Hi) as Dc. destruct (en_ctx e 0) as [|[x q] d] eqn:Ec.
    { pose proof (expect_const [] 1 Dc) as E. simpl in E. lra. }
    destruct (Rle_dec 0 Rm) as [|N]; auto. exfalso. assert (Dr : is_dist (en_rd e x 0%nat [])) by apply He.
    assert (expect (en_rd e x 0%nat []) (fun _ => 1) <= expect (en_rd e x 0%nat []) (fun _ => 0)).
    { apply expect_le_supp; auto. intros r p Hr Hp. pose proof (HR x 0%nat [] r p Hr Hp). pose proof (Rabs_pos r). lra. }
    rewrite !expect_const in H by auto. lra.
  Qed.

  Let num i (y : option (X * nat * list nat * R)) := match y with Some (x, a, v, r) => mw i x v * r | None => 0 end.
  Let den i (y : option (X * nat * list nat * R)) := match y with Some (x, a, v, r) => mw i x v | None => 0 end.

  Lemma num_marg : avg (en_n e) (fun i => expect (e_round e i) (fun y => num i (Some y))) = e_value e.
  Proof.
    apply avg_ext. intros i Hi. rewrite (expect_ext_all _ _ (fun y => let '(x, a, v, r) := y in mw i x v * (fun _ _ r => r) x v r)) by (intros [[[x a] v] r]; reflexivity).
    rewrite (mw_mean i (fun _ _ r => r)). apply expect_ext_all. intros x. rewrite expect_emb. apply sumn_ext. intros; ring.
  Qed.
  Lemma den_marg : avg (en_n e) (fun i => expect (e_round e i) (fun y => den i (Some y))) = 1.
  Proof.
    rewrite <- (avg_const (en_n e) 1) by apply He. apply avg_ext. intros i Hi.
    rewrite (expect_ext_all _ _ (fun y => let '(x, a, v, r) := y in mw i x v * (fun _ _ _ => 1) x v r)) by (intros [[[x a] v] r]; simpl; ring).
    rewrite (mw_mean i (fun _ _ _ => 1)). transitivity (expect (en_ctx e i) (fun _ => 1)); [|apply expect_const; apply He; auto]. apply expect_ext_all. intros x.
    destruct (is_dist_emb e He x (en_pos e i)) as [Db De].
    rewrite (expect_ext_all (emb_under e _) _ (fun _ => 1)) by (intros v; apply expect_const, He). apply expect_const; auto.
  Qed.
  Lemma value_range : Rabs (e_value e) <= Rm.
  Proof.
    assert (Hn : (0 < en_n e)%nat) by apply He. unfold e_value. eapply Rle_trans; [apply avg_abs; auto|].
    rewrite <- (avg_const (en_n e) Rm) by auto. apply avg_le; auto. intros i Hi. apply expect_bound; [apply He; auto|]. intros x p _ _.
    rewrite (sumn_ext _ _ (fun a => expect (en_emb e a) (fun v => expect (en_rd e x (en_pos e i) v) (fun r => r)) * en_pe e x (en_pos e i) a)) by (intros; ring).
    rewrite <- (expect_emb e (en_pe e x (en_pos e i)) (fun v => expect (en_rd e x (en_pos e i) v) (fun r => r))).
    destruct (is_dist_emb e He x (en_pos e i)) as [Db De]. apply expect_bound; auto. intros v q _ _. apply expect_bound; [apply He|]. intros r p' Hr Hp'. eapply HR; eauto.
  Qed.

  Hypothesis Hf : factorises e.
  Lemma log_weight o p i : In (o, p) (e_logs e) -> p <> 0 -> (i < en_n e)%nat ->
    e_weight (elog_of e o) i = den i (nth_error o i) /\ e_weight (elog_of e o) i * el_r (elog_of e o) i = num i (nth_error o i).
  Proof.
    intros Ho Hp Hi. destruct (In_dprod_opt _ _ _ _ Ho Hp i Hi) as ([[[x a] v] r] & q & E & Hq & Hq0).
    destruct (In_eround e He _ _ _ _ _ _ Hq Hq0) as (Ha & Hpr & Hl & Hv).
    assert (Ew : e_weight (elog_of e o) i = mw i x v).
    { unfold e_weight, marg. cbn [elog_of el_K el_pos el_pib el_pie el_pea el_emb el_D el_r]. rewrite E.
      rewrite (prodn_ext _ _ (fun d => pr_dim (emb_under e (en_pe e x (en_pos e i))) d (nth d v 0%nat)
                                     / pr_dim (emb_under e (en_pb e x (en_pos e i))) d (nth d v 0%nat))).
      2:{ intros d Hd. rewrite (pr_dim_emb e (en_pe e x (en_pos e i))), (pr_dim_emb e (en_pb e x (en_pos e i))). reflexivity. }
      unfold mw. destruct (Hf x (en_pos e i) v Hl) as [-> ->]. apply (prodn_div (en_D e)). intros d Hd.
      destruct (is_dist_emb e He x (en_pos e i)) as [Db _]. pose proof (pr_dim_ge _ v d Db). lra. }
    split; [rewrite E; exact Ew|]. rewrite Ew. cbn [elog_of el_r]. rewrite E. reflexivity.
  Qed.

  Lemma mipw_cons sel m argsort T arg eps : 0 < eps -> (sel = None \/ en_D e = 1%nat) -> (forall o, position_arg (as_log (elog_of e o)) arg) ->
    prob (e_logs e) (fun o => estimate_off (value_on false sel m argsort T (elog_of e o) arg) (e_value e) eps) <= W * Rm ^ 2 / (INR (en_n e) * eps ^ 2).
  Proof.
    intros Heps Hsel Harg. pose proof Rm_pos as HRm. assert (Hn : (0 < en_n e)%nat) by apply He. assert (HN : 0 < INR (en_n e)) by (apply lt_0_INR; auto).
    assert (HD : forall i, (i < en_n e)%nat -> is_dist (e_round e i)) by (intros; apply is_dist_eround; auto).
    pose proof (chebyshev (e_round e) (en_n e) num (W * (Rm * Rm)) eps Hn Heps HD) as C. rewrite num_marg in C.
    replace (W * Rm ^ 2 / (INR (en_n e) * eps ^ 2)) with (W * (Rm * Rm) / (INR (en_n e) * (eps * eps))) by (field; lra).
    eapply Rle_trans; [|apply C].
    - apply expect_le_supp; [apply is_dist_dprod; auto|]. intros o p Ho Hp.
      rewrite value_ok; [|eapply elog_accepted; eauto|apply Harg|exact Hsel]. cbn [estimate_off]. unfold spec_mipw. cbn [elog_of el_n].
      rewrite (avg_ext _ _ (fun i => num i (nth_error o i)) (fun i Hi => proj2 (log_weight o p i Ho Hp Hi))). apply Rle_refl.
    - intros i Hi. eapply Rle_trans; [|apply (mw_moment i (fun _ _ r => r) Rm Hi HRm)].
      + right. apply expect_ext_all. intros [[[x a] v] r]. reflexivity.
      + intros x v r p Hr Hp. eapply HR; eauto.
  Qed.

  Lemma snmipw_cons sel m argsort T arg eps : 0 < eps -> (sel = None \/ en_D e = 1%nat) -> (forall o, position_arg (as_log (elog_of e o)) arg) ->
    prob (e_logs e) (fun o => estimate_off (value_on true sel m argsort T (elog_of e o) arg) (e_value e) eps)
    <= 16 * W * Rm ^ 2 / (INR (en_n e) * eps ^ 2) + 4 * W / INR (en_n e).
  Proof.
    intros Heps Hsel Harg. pose proof Rm_pos as HRm. assert (Hn : (0 < en_n e)%nat) by apply He. assert (HN : 0 < INR (en_n e)) by (apply lt_0_INR; auto).
    assert (HD : forall i, (i < en_n e)%nat -> is_dist (e_round e i)) by (intros; apply is_dist_eround; auto).
    pose proof (ratio_off (e_round e) (en_n e) num den (e_value e) 1 (W * (2 * Rm * (2 * Rm))) (W * (1 * 1)) eps Hn Heps ltac:(lra) HD) as C.
    replace (16 * W * Rm ^ 2 / (INR (en_n e) * eps ^ 2) + 4 * W / INR (en_n e)) with
      (4 * (W * (2 * Rm * (2 * Rm))) / (INR (en_n e) * (1 * 1) * (eps * eps)) + 4 * (W * (1 * 1)) / (INR (en_n e) * (1 * 1))) by (field; lra).
    eapply Rle_trans; [|apply C].
    - apply Rle_trans with (2 := Rle_refl _). apply expect_le_supp; [apply is_dist_dprod; auto|]. intros o p Ho Hp. cbv zeta.
      match goal with |- (if ?a then 1 else 0) <= (if ?b then 1 else 0) => enough (I : a = true -> b = true) by (destruct a; [rewrite I by reflexivity; lra|destruct b; lra]) end.
      intros Hoff.
      assert (Ed : avg (en_n e) (fun i => den i (nth_error o i)) = avg (en_n e) (e_weight (elog_of e o))).
      { apply avg_ext. intros i Hi. symmetry. apply (log_weight o p i Ho Hp Hi). }
      assert (En : avg (en_n e) (fun i => num i (nth_error o i)) = avg (en_n e) (fun i => e_weight (elog_of e o) i * el_r (elog_of e o) i)).
      { apply avg_ext. intros i Hi. symmetry. apply (log_weight o p i Ho Hp Hi). }
      rewrite Ed, En. destruct (Rlt_dec 0 _) as [Hd|]; [|reflexivity].
      assert (Hs : 0 < sumn (en_n e) (e_weight (elog_of e o))).
      { unfold avg in Hd. apply (Rmult_lt_reg_r (/ INR (en_n e))); [apply Rinv_0_lt_compat; lra|]. unfold Rdiv in Hd. lra. }
      rewrite value_sn_ok in Hoff; [|eapply elog_accepted; eauto|apply Harg|exact Hsel|change (el_n (elog_of e o)) with (en_n e); lra].
      cbn [estimate_off] in Hoff. change (el_n (elog_of e o)) with (en_n e) in Hoff.
      match type of Hoff with (if Rle_dec eps (Rabs (?a - _)) then _ else _) = _ => set (u := a) in * end.
      assert (Eu : avg (en_n e) (fun i => e_weight (elog_of e o) i * el_r (elog_of e o) i) / avg (en_n e) (e_weight (elog_of e o)) = u).
      { unfold u, avg. field. split; lra. }
      rewrite Eu. exact Hoff.
    - rewrite (avg_ext _ _ (fun i => expect (e_round e i) (fun y => num i (Some y)) - e_value e * expect (e_round e i) (fun y => den i (Some y))))
        by (intros; rewrite <- expect_scal, <- expect_minus; reflexivity).
      rewrite avg_minus, avg_scal, num_marg, den_marg. ring.
    - apply den_marg.
    - rewrite <- (avg_const (en_n e) (W * (2 * Rm * (2 * Rm)))) by auto. apply avg_le; auto. intros i Hi.
      eapply Rle_trans; [|apply (mw_moment i (fun _ _ r => r - e_value e) (2 * Rm) Hi ltac:(lra))].
      + right. apply expect_ext_all. intros [[[x a] v] r]. unfold num, den. ring.
      + intros x v r p Hr Hp. pose proof (HR x _ v r p Hr Hp). pose proof value_range. eapply Rle_trans; [apply Rabs_triang|]. rewrite Rabs_Ropp. lra.
    - rewrite <- (avg_const (en_n e) (W * (1 * 1))) by auto. apply avg_le; auto. intros i Hi.
      eapply Rle_trans; [|apply (mw_moment i (fun _ _ _ => 1) 1 Hi ltac:(lra))].
      + right. apply expect_ext_all. intros [[[x a] v] r]. simpl. ring.
      + intros. rewrite Rabs_R1. lra.
  Qed.
End Marg.

(** The marginal weights (evaluation over behaviour probability of an embedding) are at most W, rewards are bounded by Rm and
    depend on the action only through its embedding, and the embedding dimensions are independent under both policies. *)
Theorem C173_mipw_consistent : forall X (e : eenv X) W Rm sel m argsort T arg eps, eenv_ok e -> factorises e -> 0 < eps ->
  (forall x s v, pr (emb_under e (en_pe e x s)) v <= W * pr (emb_under e (en_pb e x s)) v) ->
  (forall x s v r p, In (r, p) (en_rd e x s v) -> p <> 0 -> Rabs r <= Rm) ->
  (sel = None \/ en_D e = 1%nat) -> (forall o, position_arg (as_log (elog_of e o)) arg) ->
  prob (e_logs e) (fun o => estimate_off (value_on false sel m argsort T (elog_of e o) arg) (e_value e) eps) <= W * Rm ^ 2 / (INR (en_n e) * eps ^ 2).
Proof. intros. apply mipw_cons; auto. Qed.

Theorem C173_snmipw_consistent : forall X (e : eenv X) W Rm sel m argsort T arg eps, eenv_ok e -> factorises e -> 0 < eps ->
  (forall x s v, pr (emb_under e (en_pe e x s)) v <= W * pr (emb_under e (en_pb e x s)) v) ->
  (forall x s v r p, In (r, p) (en_rd e x s v) -> p <> 0 -> Rabs r <= Rm) ->
  (sel = None \/ en_D e = 1%nat) -> (forall o, position_arg (as_log (elog_of e o)) arg) ->
  prob (e_logs e) (fun o => estimate_off (value_on true sel m argsort T (elog_of e o) arg) (e_value e) eps)
  <= 16 * W * Rm ^ 2 / (INR (en_n e) * eps ^ 2) + 4 * W / INR (en_n e).
Proof. intros. apply snmipw_cons; auto. Qed.

(** A case where the behaviour policy never plays action 2, which the evaluation policy plays at least half of the time, for every
    number of rounds: the marginal weights are at most 2 and both estimators converge. *)
Definition shared_env (n : nat) : eenv bool := {|
  en_n := n; en_K := 3; en_L := 1; en_C := 2; en_D := 1; en_pos := fun _ => 0%nat;
  en_ctx := fun _ => [(true, 1/3); (false, 2/3)];
  en_pb := fun x s a => nth a [1/4; 3/4; 0] 0;
  en_pe := fun x s a => if x then nth a [1/2; 0; 1/2] 0 else nth a [0; 1/3; 2/3] 0;
  en_emb := fun a => match a with O => [([0%nat], 1)] | _ => [([0%nat], 1/5); ([1%nat], 4/5)] end;
  en_rd := fun x s v => [(1, 1/2); (0, 1/2)] |}.
Lemma shared_ok n : (0 < n)%nat -> eenv_ok (shared_env n).
Proof.
  intros Hn. constructor; simpl; intros; auto; try lia; try lra.
  - isd.
  - idx a; simpl; lra || lia.
  - destruct x; idx a; simpl; lra || lia.
  - destruct x; simpl; lra.
  - destruct a; isd.
  - destruct a; simpl in *; intuition; repeat match goal with H : (_, _) = (_, _) |- _ => injection H as <- <- end;
      auto; idx d; simpl; lia.
  - isd.
Qed.
Lemma shared_W n x s v : pr (emb_under (shared_env n) (en_pe (shared_env n) x s)) v <= 2 * pr (emb_under (shared_env n) (en_pb (shared_env n) x s)) v.
Proof.
  unfold pr, emb_under. destruct x; cbn -[list_eq_dec];
      destruct (list_eq_dec Nat.eq_dec [0%nat] v); destruct (list_eq_dec Nat.eq_dec [1%nat] v); intros; lra.
Qed.
Lemma shared_R n x s v r p : In (r, p) (en_rd (shared_env n) x s v) -> p <> 0 -> Rabs r <= 1.
Proof. intros [[= <- <-]|[[= <- <-]|[]]] _; rewrite Rabs_right; lra. Qed.
Example C173_example : forall n sel m argsort T, (0 < n)%nat ->
  en_pb (shared_env n) true 0 2 = 0 /\ en_pe (shared_env n) true 0 2 = 1 / 2 /\
  prob (e_logs (shared_env n)) (fun o => estimate_off (value_on false sel m argsort T (elog_of (shared_env n) o) None) (e_value (shared_env n)) (1 / 4)) <= 32 / INR n /\
  prob (e_logs (shared_env n)) (fun o => estimate_off (value_on true sel m argsort T (elog_of (shared_env n) o) None) (e_value (shared_env n)) (1 / 4)) <= 520 / INR n.
Proof.
  intros n sel m argsort T Hn. pose proof (shared_ok n Hn) as He. assert (HN : 0 < INR n) by (apply lt_0_INR; auto).
  assert (Hf : factorises (shared_env n)) by (apply one_dim_factorises; auto).
  assert (Ha : forall o, position_arg (as_log (elog_of (shared_env n) o)) None) by (intros o; right; simpl; auto).
  split; [reflexivity|]. split; [reflexivity|]. split.
  - eapply Rle_trans; [apply (C173_mipw_consistent bool (shared_env n) 2 1); auto; try lra; [apply shared_W|apply shared_R]|].
    right. change (en_n (shared_env n)) with n. field. lra.
  - eapply Rle_trans; [apply (C173_snmipw_consistent bool (shared_env n) 2 1); auto; try lra; [apply shared_W|apply shared_R]|].
    right. change (en_n (shared_env n)) with n. field. lra.
Qed.

Print Assumptions C173_mipw_consistent.
Print Assumptions C173_snmipw_consistent.
