(** * P_MultiVar: balanced weights never have a larger mean squared error than naive ones (C137). *)

From Coq Require Import Reals List ZArith Lia Lra.
From Verif Require Import Num NpList M_Utils M_Estimators M_Slate M_Multi S_Base S_Prob S_Estimators S_Env S_Tuning
  S_Multi L_Num L_Base L_Prob L_Estimators L_Unbiased L_Examples L_Multi L_Conc L_Conc3 P_Risk.
Import ListNotations.
Open Scope R_scope.

Section Two.
  Context {X : Type} (m : menv X) (Hm : menv_ok m) (Hs : full_support m).
  (** A model of the rewards and its mean under the evaluation policy. *)
  Variables (q : X -> nat -> R).
  Let s := me_s m.
  Let Q x := sumn (me_K m) (fun a => q x a * me_pe m x a s).
  Let wb (x : X) a := me_pe m x a s / avg_pscore m (x, 0%nat) s a.
  Let wn k x a := me_pe m x a s / me_pb m k x s a.
  Definition bal_term (i : nat) (y : X * nat * nat * R) : R := let '((x, _), a, r) := y in Q x + wb x a * (r - q x a).
  Definition nai_term (i : nat) (y : X * nat * nat * R) : R := let '((x, k), a, r) := y in Q x + wn k x a * (r - q x a).
  Let D i := round_dist (env_of m) i.

  Lemma multi_dist i : (i < me_n m)%nat -> is_dist (D i).
  Proof. intros Hi. apply (is_dist_round (env_of m) (env_of_ok m Hm) i Hi). Qed.

  Lemma expect_mround i (F : X -> nat -> nat -> R -> R) : expect (D i) (fun y => let '((x, k), a, r) := y in F x k a r)
    = expect (me_ctx m) (fun x => sumn (me_K m) (fun a => expect (me_rd m x s a) (F x (me_g m i) a) * me_pb m (me_g m i) x s a)).
  Proof.
    unfold D. rewrite (expect_round (env_of m) i _ (fun xk a r => F (fst xk) (snd xk) a r)) by (intros [x k]; reflexivity).
    cbn [ev_ctx env_of]. rewrite expect_dmap. reflexivity.
  Qed.

  Lemma pooled_mean (F : X -> nat -> R -> R) : avg (me_n m) (fun i => expect (D i) (fun y => let '((x, _), a, r) := y in F x a r))
    = expect (me_ctx m) (fun x => sumn (me_K m) (fun a => avg_pscore m (x, 0%nat) s a * expect (me_rd m x s a) (F x a))).
  Proof.
    unfold s. rewrite <- (expect_pooled m Hm F). unfold log_dist. cbn [ev_n env_of].
    rewrite (expect_dprod_avg_opt _ _ (fun _ y => match y with Some ((x, _), a, r) => F x a r | None => 0 end)) by (intros; apply multi_dist; auto).
    reflexivity.
  Qed.

  Lemma avg_cancels x a : (a < me_K m)%nat -> avg_pscore m (x, 0%nat) s a * wb x a = me_pe m x a s.
  Proof.
    intros Ha. unfold wb. destruct (Rle_lt_or_eq_dec 0 _ (mo_pe0 m Hm x a s Ha)) as [Hp|Hz].
    - pose proof (avg_pscore_pos m Hm x 0 s a 0 (mo_n m Hm) Ha (Hs x a 0%nat (mo_n m Hm) Ha Hp)). field. lra.
    - rewrite <- Hz. unfold Rdiv. ring.
  Qed.
  Lemma own_cancels i x a : (i < me_n m)%nat -> (a < me_K m)%nat -> me_pb m (me_g m i) x s a * wn (me_g m i) x a = me_pe m x a s.
  Proof.
    intros Hi Ha. unfold wn. destruct (Rle_lt_or_eq_dec 0 _ (mo_pe0 m Hm x a s Ha)) as [Hp|Hz].
    - pose proof (Hs x a i Hi Ha Hp). unfold s in *. field. lra.
    - rewrite <- Hz. unfold Rdiv. ring.
  Qed.

  (** Reweighting any quantity by either weight gives its mean under the evaluation policy. *)
  Let target (F : X -> nat -> R -> R) := expect (me_ctx m) (fun x => sumn (me_K m) (fun a => me_pe m x a s * expect (me_rd m x s a) (F x a))).
  Lemma own_mean F i : (i < me_n m)%nat -> expect (D i) (fun y => let '((x, k), a, r) := y in wn k x a * F x a r) = target F.
  Proof.
    intros Hi. rewrite (expect_mround i (fun x k a r => wn k x a * F x a r)). unfold target. apply expect_ext_all. intros x. apply sumn_ext. intros a Ha.
    rewrite expect_scal, <- (own_cancels i x a Hi Ha). ring.
  Qed.
  Lemma bal_mean F : avg (me_n m) (fun i => expect (D i) (fun y => let '((x, _), a, r) := y in wb x a * F x a r)) = target F.
  Proof.
    rewrite (pooled_mean (fun x a r => wb x a * F x a r)). unfold target. apply expect_ext_all. intros x. apply sumn_ext. intros a Ha.
    rewrite expect_scal, <- (avg_cancels x a Ha). ring.
  Qed.
  Lemma base_mean i : (i < me_n m)%nat -> expect (D i) (fun y => let '((x, _), _, _) := y in Q x) = expect (me_ctx m) Q.
  Proof.
    intros Hi. rewrite (expect_mround i (fun x _ _ _ => Q x)). apply expect_ext_all. intros x.
    rewrite (sumn_ext _ _ (fun a => Q x * me_pb m (me_g m i) x s a)) by (intros; rewrite expect_const by apply Hm; ring).
    rewrite sumn_scal. unfold s. rewrite (mo_pb1 m Hm). ring.
  Qed.
  Lemma value_split : expect (me_ctx m) Q + target (fun x a r => r - q x a) = me_value m.
  Proof.
    unfold target, me_value. rewrite <- expect_plus. apply expect_ext_all. intros x. unfold Q. rewrite <- sumn_plus. apply sumn_ext. intros a Ha.
    rewrite expect_minus, expect_const by apply Hm. fold s. ring.
  Qed.

  Lemma nai_mu i : (i < me_n m)%nat -> expect (D i) (nai_term i) = me_value m.
  Proof.
    intros Hi. rewrite <- value_split, <- (base_mean i Hi), <- (own_mean (fun x a r => r - q x a) i Hi), <- expect_plus.
    apply expect_ext_all. intros [[[x k] a] r]. reflexivity.
  Qed.
  Lemma bal_mu : avg (me_n m) (fun i => expect (D i) (bal_term i)) = me_value m.
  Proof.
    rewrite <- value_split, <- (bal_mean (fun x a r => r - q x a)), <- (avg_const (me_n m) (expect (me_ctx m) Q)) by apply Hm.
    rewrite <- avg_plus. apply avg_ext. intros i Hi. rewrite <- (base_mean i Hi), <- expect_plus. apply expect_ext_all. intros [[[x k] a] r]. reflexivity.
  Qed.

  Lemma cross F : avg (me_n m) (fun i => expect (D i) (fun y => let '((x, k), a, r) := y in (wn k x a - wb x a) * F x a r)) = 0.
  Proof.
    rewrite (avg_ext _ _ (fun i => expect (D i) (fun y => let '((x, k), a, r) := y in wn k x a * F x a r)
                                 - expect (D i) (fun y => let '((x, _), a, r) := y in wb x a * F x a r))).
    2:{ intros i Hi. rewrite <- expect_minus. apply expect_ext_all. intros [[[x k] a] r]. ring. }
    rewrite avg_minus, bal_mean, (avg_ext _ _ (fun _ => target F)), avg_const by (try apply Hm; intros; apply own_mean; auto). ring.
  Qed.

  Lemma moments : avg (me_n m) (fun i => expect (D i) (fun y => bal_term i y * bal_term i y))
                <= avg (me_n m) (fun i => expect (D i) (fun y => nai_term i y * nai_term i y)).
  Proof.
    pose proof (cross (fun x a r => 2 * (Q x + wb x a * (r - q x a)) * (r - q x a))) as C.
    set (c := fun i => expect (D i) _) in C.
    apply (Rle_trans _ (avg (me_n m) (fun i => expect (D i) (fun y => bal_term i y * bal_term i y) + c i))); [rewrite avg_plus, C; lra|].
    apply avg_le; [apply Hm|]. intros i Hi. unfold c. rewrite <- expect_plus. apply expect_le_supp; [apply multi_dist; auto|].
    intros [[[x k] a] r] p _ _. unfold bal_term, nai_term. pose proof (Rle_0_sqr ((wn k x a - wb x a) * (r - q x a))) as H. unfold Rsqr in H. lra.
  Qed.
End Two.

Section Compare.
  Context {X : Type} (m : menv X) (Hm : menv_ok m) (Hs : full_support m) (q : X -> nat -> R).
  Let opt (f : nat -> X * nat * nat * R -> R) (o : list (X * nat * nat * R)) (i : nat) := match nth_error o i with Some y => f i y | None => 0 end.
  Definition bal_est o := avg (me_n m) (opt (bal_term m q) o).
  Definition nai_est o := avg (me_n m) (opt (nai_term m q) o).

  Lemma square_form f : avg (me_n m) (fun i => expect (round_dist (env_of m) i) (f i)) = me_value m ->
    expect (log_dist (env_of m)) (fun o => avg (me_n m) (opt f o)) = me_value m /\
    expect (log_dist (env_of m)) (fun o => (avg (me_n m) (opt f o) - me_value m) * (avg (me_n m) (opt f o) - me_value m))
    = (avg (me_n m) (fun i => expect (round_dist (env_of m) i) (fun y => f i y * f i y))
       - avg (me_n m) (fun i => expect (round_dist (env_of m) i) (f i) * expect (round_dist (env_of m) i) (f i))) / INR (me_n m).
  Proof.
    intros M. assert (HD : forall i, (i < me_n m)%nat -> is_dist (round_dist (env_of m) i)) by (intros; apply multi_dist; auto).
    assert (Hn : (0 < me_n m)%nat) by apply Hm. assert (HN : 0 < INR (me_n m)) by (apply lt_0_INR; auto).
    assert (HP : is_dist (log_dist (env_of m))) by (apply is_dist_dprod; auto).
    pose proof (mean_avg (me_n m) (round_dist (env_of m)) f HD) as M1. pose proof (mean_square (me_n m) (round_dist (env_of m)) f Hn HD) as M2. rewrite M in M1, M2.
    assert (M1' : expect (log_dist (env_of m)) (fun o => avg (me_n m) (opt f o)) = me_value m) by exact M1. split; [exact M1'|].
    rewrite (expect_ext_all _ _ (fun o => avg (me_n m) (opt f o) * avg (me_n m) (opt f o) - 2 * me_value m * avg (me_n m) (opt f o) + me_value m * me_value m)) by (intros; ring).
    rewrite expect_plus, expect_minus, expect_scal, expect_const, M1' by auto.
    change (expect (log_dist (env_of m)) (fun o => avg (me_n m) (opt f o) * avg (me_n m) (opt f o))) with
      (expect (dprod (me_n m) (round_dist (env_of m))) (fun o => avg (me_n m) (fun i => match nth_error o i with Some a => f i a | None => 0 end) * avg (me_n m) (fun i => match nth_error o i with Some a => f i a | None => 0 end))).
    rewrite M2, <- avg_minus.
    rewrite (avg_ext _ (fun i => expect (round_dist (env_of m) i) (fun y => f i y * f i y) - _)
       (fun i => expect (round_dist (env_of m) i) (fun y => (f i y - expect (round_dist (env_of m) i) (f i)) * (f i y - expect (round_dist (env_of m) i) (f i))))); [field; lra|].
    intros i Hi. rewrite (var_split (me_n m) (round_dist (env_of m)) f HD i Hi). ring.
  Qed.

  Lemma square_avg n (f : nat -> R) : (0 < n)%nat -> avg n f * avg n f <= avg n (fun i => f i * f i).
  Proof.
    intros Hn. assert (H : 0 <= avg n (fun i => (f i - avg n f) * (f i - avg n f))).
    { rewrite <- (avg_const n 0 Hn). apply avg_le; auto. intros. apply Rle_0_sqr. }
    rewrite (avg_ext n _ (fun i => f i * f i - 2 * avg n f * f i + avg n f * avg n f)) in H by (intros; ring).
    rewrite avg_plus, avg_minus, avg_scal, avg_const in H by auto. lra.
  Qed.

  Lemma compare_mse :
    let mse est := expect (log_dist (env_of m)) (fun o => (est o - me_value m) * (est o - me_value m)) in
    expect (log_dist (env_of m)) bal_est = me_value m /\ expect (log_dist (env_of m)) nai_est = me_value m /\ mse bal_est <= mse nai_est.
  Proof.
    intros mse. assert (Hn : (0 < me_n m)%nat) by apply Hm. assert (HN : 0 < INR (me_n m)) by (apply lt_0_INR; auto).
    destruct (square_form (bal_term m q) (bal_mu m Hm Hs q)) as [B1 B2].
    destruct (square_form (nai_term m q)) as [N1 N2].
    { rewrite (avg_ext _ _ (fun _ => me_value m)) by (intros; apply nai_mu; auto). apply avg_const; auto. }
    split; [exact B1|]. split; [exact N1|]. unfold mse, bal_est, nai_est. rewrite B2, N2.
    unfold Rdiv. apply Rmult_le_compat_r; [left; apply Rinv_0_lt_compat; auto|].
    pose proof (moments m Hm Hs q) as M. pose proof (square_avg (me_n m) (fun i => expect (round_dist (env_of m) i) (bal_term m q i)) Hn) as J.
    rewrite (bal_mu m Hm Hs q) in J.
    rewrite (avg_ext _ (fun i => expect _ (nai_term m q i) * expect _ (nai_term m q i)) (fun _ => me_value m * me_value m)) by (intros; rewrite nai_mu by auto; reflexivity).
    rewrite avg_const by auto. lra.
  Qed.
End Compare.

(** Several loggers, each supporting the evaluation policy: naive and balanced IPW (and DR with any model) are unbiased, and
    balancing never increases the mean squared error. *)
Theorem C137_balanced_mse : forall X (m : menv X) (qh : X -> nat -> nat -> R) arg, menv_ok m -> full_support m ->
  (forall pt q o, position_arg (log_of (env_of m) pt q o) arg) ->
  exists bipw nipw bdr ndr : list (X * nat * nat * R) -> R,
    (forall o p, In (o, p) (log_dist (env_of m)) -> p <> 0 ->
       let lb := log_of (env_of m) (avg_pscore m) (fun xk => qh (fst xk)) o in
       let ln := log_of (env_of m) (own_pscore m) (fun xk => qh (fst xk)) o in
       mb_ipw_value PInf false (rewards lb) (actions lb) (policy lb) (Some (pscores lb)) arg None = Ok (Fin (bipw o)) /\
       mn_ipw_value PInf false (rewards ln) (actions ln) (policy ln) (Some (pscores ln)) arg None = Ok (Fin (nipw o)) /\
       mb_dr_value PInf false (rewards lb) (actions lb) (policy lb) (model lb) (Some (pscores lb)) arg None = Ok (Fin (bdr o)) /\
       mn_dr_value PInf false (rewards ln) (actions ln) (policy ln) (model ln) (Some (pscores ln)) arg None = Ok (Fin (ndr o))) /\
    let mean est := expect (log_dist (env_of m)) est in
    let mse est := mean (fun o => (est o - me_value m) * (est o - me_value m)) in
    (mean bipw = me_value m /\ mean nipw = me_value m /\ mean bdr = me_value m /\ mean ndr = me_value m) /\
    mse bipw <= mse nipw /\ mse bdr <= mse ndr.
Proof.
  intros X m qh arg Hm Hs Harg.
  exists (bal_est m (fun _ _ => 0)), (nai_est m (fun _ _ => 0)), (bal_est m (fun x a => qh x a (me_s m))), (nai_est m (fun x a => qh x a (me_s m))).
  split.
  - intros o p Ho Hp lb ln.
    assert (Hb : accepted lb).
    { eapply accepted_multi; eauto. intros. eapply avg_pscore_pos; eauto. }
    assert (Hn : accepted ln) by (eapply accepted_multi; eauto).
    assert (HI : forall i, (i < me_n m)%nat -> exists x k a r, nth_error o i = Some ((x, k), a, r)).
    { intros i Hi. destruct (In_dprod_opt _ _ _ _ Ho Hp i Hi) as ([[[x k] a] r] & _ & E & _). eauto. }
    pose proof (mn_ipw_value_ok None false lb arg (Some (pscores lb)) None Hb (Harg _ _ _) eq_refl) as E1.
    pose proof (mn_ipw_value_ok None false ln arg (Some (pscores ln)) None Hn (Harg _ _ _) eq_refl) as E2.
    pose proof (mn_dr_value_ok None false lb arg (Some (pscores lb)) None Hb (Harg _ _ _) eq_refl) as E3.
    pose proof (mn_dr_value_ok None false ln arg (Some (pscores ln)) None Hn (Harg _ _ _) eq_refl) as E4.
    assert (Z : forall x, sumn (me_K m) (fun a => 0 * me_pe m x a (me_s m)) = 0) by (intros; apply sumn_zero; intros; ring).
    assert (B1 : spec_ipw None lb = bal_est m (fun _ _ => 0) o).
    { unfold spec_ipw, bal_est, bal_term. apply avg_ext. intros i Hi. destruct (HI i Hi) as (x & k & a & r & E). unfold weight, clip.
      cbn [lb lg_r lg_q lg_pi lg_a lg_p lg_pos log_of]. rewrite E, Z. cbn [env_of ev_pe ev_pos fst]. unfold avg_pscore. cbn [fst]. ring. }
    assert (B2 : spec_ipw None ln = nai_est m (fun _ _ => 0) o).
    { unfold spec_ipw, nai_est, nai_term. apply avg_ext. intros i Hi. destruct (HI i Hi) as (x & k & a & r & E). unfold weight, clip.
      cbn [ln lg_r lg_q lg_pi lg_a lg_p lg_pos log_of]. rewrite E, Z. cbn [env_of ev_pe ev_pos fst]. unfold own_pscore. cbn [fst snd]. ring. }
    assert (B3 : spec_dr None lb = bal_est m (fun x a => qh x a (me_s m)) o).
    { unfold spec_dr. rewrite <- dr_sum. unfold bal_est, bal_term. apply avg_ext. intros i Hi. destruct (HI i Hi) as (x & k & a & r & E).
      unfold lb. rewrite (q_pi_log (env_of m) (env_of_ok m Hm) _ _ _ _ _ _ _ Hi E). unfold weight, q_at, clip.
      cbn [lg_r lg_q lg_pi lg_a lg_p lg_pos log_of]. rewrite E. reflexivity. }
    assert (B4 : spec_dr None ln = nai_est m (fun x a => qh x a (me_s m)) o).
    { unfold spec_dr. rewrite <- dr_sum. unfold nai_est, nai_term. apply avg_ext. intros i Hi. destruct (HI i Hi) as (x & k & a & r & E).
      unfold ln. rewrite (q_pi_log (env_of m) (env_of_ok m Hm) _ _ _ _ _ _ _ Hi E). unfold weight, q_at, clip.
      cbn [lg_r lg_q lg_pi lg_a lg_p lg_pos log_of]. rewrite E. reflexivity. }
    rewrite <- B1, <- B2, <- B3, <- B4. split; [exact E1|]. split; [exact E2|]. split; [exact E3|exact E4].
  - intros mean mse. destruct (compare_mse m Hm Hs (fun _ _ => 0)) as (A1 & A2 & A3). destruct (compare_mse m Hm Hs (fun x a => qh x a (me_s m))) as (A4 & A5 & A6).
    repeat split; auto.
Qed.

(** Two loggers with opposite preferences and reward one: the balanced estimate is exact, the naive one has error 1/6. *)
Definition opp_env : menv unit := {|
  me_n := 2; me_K := 2; me_L := 1; me_S := 2; me_s := 0%nat; me_g := fun i => i;
  me_ctx := [(tt, 1)];
  me_pb := fun k _ _ a => if Nat.eqb a (Nat.min k 1) then 1 / 4 else 3 / 4;
  me_pe := fun _ _ _ => 1 / 2;
  me_rd := fun _ _ a => [(1, 1)] |}.
Example C137_case : menv_ok opp_env /\ full_support opp_env /\ (forall pt q o, position_arg (log_of (env_of opp_env) pt q o) None) /\
  me_value opp_env = 1 /\
  expect (log_dist (env_of opp_env)) (fun o => (spec_ipw None (log_of (env_of opp_env) (avg_pscore opp_env) (fun _ _ _ => 0) o) - 1) ^ 2) = 0 /\
  expect (log_dist (env_of opp_env)) (fun o => (spec_ipw None (log_of (env_of opp_env) (own_pscore opp_env) (fun _ _ _ => 0) o) - 1) ^ 2) = 1 / 6.
Proof.
  split; [|split; [|split; [|split; [|split]]]].
  - constructor; simpl; intros; try lia; try lra.
    + split; simpl; [intros ? ? [[= <- <-]|[]]; lra|lra].
    + destruct (Nat.eqb a (Nat.min k 1)); lra.
    + destruct k as [|k]; simpl; [lra|]. replace (Nat.min k 0) with 0%nat by lia. simpl. lra.
    + split; simpl; [intros ? ? [[= <- <-]|[]]; lra|lra].
  - intros x a i _ _ _. simpl. destruct (Nat.eqb a (Nat.min i 1)); lra.
  - intros pt q o. right. simpl. auto.
  - unfold me_value. simpl. lra.
  - unfold spec_ipw, avg, weight, clip, avg_pscore, share, st_size, member. simpl. field.
  - unfold spec_ipw, avg, weight, clip, own_pscore. simpl. field.
Qed.

Print Assumptions C137_balanced_mse.
