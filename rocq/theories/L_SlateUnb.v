(** * L_SlateUnb: expectations of the slate estimators. *)

From Coq Require Import Reals List ZArith Bool Lia Lra.
From Verif Require Import Num NpList M_Utils M_Slate S_Base S_Prob S_Slate L_Num L_Base L_Prob L_Unbiased
  L_Slate L_SlateEst.
Import ListNotations.
Open Scope R_scope.

Lemma expect_swap {A B} (d : dist A) (e : dist B) f :
  expect d (fun a => expect e (fun b => f a b)) = expect e (fun b => expect d (fun a => f a b)).
Proof.
  induction d as [|[a p] d IH]; simpl.
  - induction e as [|[b q] e IHe]; simpl; auto. unfold expect in *. simpl. rewrite <- IHe. lra.
  - change (expect e (fun b => f a b) * p + expect d (fun a => expect e (fun b => f a b))
      = expect e (fun b => f a b * p + expect d (fun a => f a b))).
    rewrite expect_plus, expect_scal_r, IH. reflexivity.
Qed.

(** ** agreement *)
Lemma agree_refl kd k s : agree kd k s s = true.
Proof. destruct kd; simpl; [destruct (list_eq_dec _ s s)|destruct (Nat.eq_dec _ _)|destruct (list_eq_dec _ _ _)]; congruence. Qed.
Lemma agree_sym kd k s t : agree kd k s t = agree kd k t s.
Proof.
  destruct kd; unfold agree.
  - destruct (list_eq_dec _ s t), (list_eq_dec _ t s); congruence.
  - destruct (Nat.eq_dec (nth k s 0%nat) (nth k t 0%nat)), (Nat.eq_dec (nth k t 0%nat) (nth k s 0%nat)); congruence.
  - destruct (list_eq_dec _ (firstn (S k) s) (firstn (S k) t)), (list_eq_dec _ (firstn (S k) t) (firstn (S k) s)); congruence.
Qed.
Lemma agree_trans kd k s t u : agree kd k s t = true -> agree kd k s u = agree kd k t u.
Proof.
  destruct kd; unfold agree.
  - destruct (list_eq_dec _ s t); [subst; auto|discriminate].
  - destruct (Nat.eq_dec (nth k s 0%nat) (nth k t 0%nat)) as [->|]; [auto|discriminate].
  - destruct (list_eq_dec _ (firstn (S k) s) (firstn (S k) t)) as [->|]; [auto|discriminate].
Qed.
Lemma propensity_agree kd k d s t : agree kd k s t = true -> propensity kd k d s = propensity kd k d t.
Proof.
  intros H. unfold propensity. apply expect_ext_all. intros u. rewrite (agree_trans kd k s t u) by auto. reflexivity.
Qed.
Lemma propensity_bounds kd k d s : is_dist d -> 0 <= propensity kd k d s <= 1.
Proof.
  intros H. unfold propensity. split.
  - apply expect_nonneg; [apply H|]. intros; destruct (agree _ _ _ _); lra.
  - apply Rle_trans with (expect d (fun _ => 1)); [|right; apply expect_const; auto].
    apply expect_le; [apply H|]. intros; destruct (agree _ _ _ _); lra.
Qed.
Lemma expect_pos_at {A} (d : dist A) f s p : is_dist d -> In (s, p) d -> p <> 0 -> (forall a, 0 <= f a) -> 0 < f s -> 0 < expect d f.
Proof.
  intros [H0 _] Hin Hp Hf Hs. induction d as [|[a q] d IH]; simpl in *; [tauto|].
  assert (Hd : 0 <= expect d f).
  { apply expect_nonneg; [intros; eapply H0; right; eauto|auto]. }
  destruct Hin as [[= -> ->]|Hin].
  - assert (0 <= p) by (eapply H0; auto). assert (0 < p) by lra. nra.
  - assert (0 < expect d f) by (apply IH; auto; intros; eapply H0; right; eauto).
    assert (0 <= q) by (eapply H0; auto). specialize (Hf a). change (fold_right _ 0 d) with (expect d f). nra.
Qed.
Lemma propensity_pos kd k d s p : is_dist d -> In (s, p) d -> p <> 0 -> 0 < propensity kd k d s.
Proof.
  intros H Hin Hp. unfold propensity. apply (expect_pos_at d _ s p); auto.
  - intros; destruct (agree _ _ _ _); lra.
  - rewrite agree_refl. lra.
Qed.
Lemma propensity_cascade_mono k k' d s : is_dist d -> (k <= k')%nat ->
  propensity Cascade k' d s <= propensity Cascade k d s.
Proof.
  intros H Hk. unfold propensity. apply expect_le; [apply H|]. intros t p _.
  unfold agree. destruct (list_eq_dec _ (firstn (S k') s) (firstn (S k') t)) as [E|]; [|destruct (list_eq_dec _ _ _); lra].
  destruct (list_eq_dec _ _ _) as [|N]; [lra|]. exfalso. apply N.
  assert (F : forall x : list nat, firstn (S k) x = firstn (S k) (firstn (S k') x)).
  { intros x. rewrite firstn_firstn. f_equal. lia. }
  rewrite (F s), (F t), E. reflexivity.
Qed.

(** Change of measure on a partition. *)
Lemma change_of_measure kd k mu nu h : is_dist mu ->
  (forall s t, agree kd k s t = true -> h s = h t) ->
  (forall s p, In (s, p) nu -> p <> 0 -> 0 < propensity kd k mu s) ->
  expect mu (fun s => propensity kd k nu s / propensity kd k mu s * h s) = expect nu h.
Proof.
  intros Hmu Hh Hsup.
  transitivity (expect mu (fun s => expect nu (fun t => (if agree kd k t s then 1 else 0) * (/ propensity kd k mu t * h t)))).
  - apply expect_ext_all. intros s. unfold propensity at 1. unfold Rdiv. rewrite Rmult_assoc, <- expect_scal_r.
    apply expect_ext_all. intros t. rewrite (agree_sym kd k t s). destruct (agree kd k s t) eqn:E; [|lra].
    rewrite (propensity_agree kd k mu s t E), (Hh s t E). lra.
  - rewrite expect_swap. apply expect_ext. intros t p Hin Hp. rewrite expect_scal_r.
    fold (propensity kd k mu t). specialize (Hsup t p Hin Hp). field. lra.
Qed.

(** ** Logs drawn from the environment *)
Section Env.
  Context {X : Type} (e : senv X) (He : senv_ok e).

  Lemma is_dist_slate_round i : (i < se_n e)%nat -> is_dist (slate_round e i).
  Proof.
    intros Hi. unfold slate_round. apply is_dist_dbind; [apply He; auto|]. intros x p _.
    apply is_dist_dbind; [apply He|]. intros s q _. apply is_dist_dmap. apply He.
  Qed.
  Lemma In_slate_round i x s r p : In ((x, s, r), p) (slate_round e i) -> p <> 0 ->
    exists q, In (s, q) (se_mu e x) /\ q <> 0.
  Proof.
    intros H Hp. unfold slate_round in H. apply In_dbind in H as (x' & q1 & y & H1 & H2 & ->).
    apply In_dbind in H2 as (s' & q2 & z & H2 & H3 & ->). apply In_dmap in H3 as (r' & E & H3).
    injection E as -> -> ->. exists q2. split; auto. intros ->. apply Hp. lra.
  Qed.

  (** every row of a logged outcome belongs to a slate the behaviour policy can show *)
  Lemma log_outcome o p : In (o, p) (slate_logs e) -> p <> 0 ->
    forall i, (i < se_n e)%nat -> exists x s r q, nth_error o i = Some (x, s, r) /\ In (s, q) (se_mu e x) /\ q <> 0.
  Proof.
    intros H Hp i Hi. destruct (In_dprod_opt _ _ _ _ H Hp i Hi) as ([[x s] r] & q & E & Hq & Hq0).
    destruct (In_slate_round i x s r q Hq Hq0) as (q' & H1 & H2). exists x, s, r, q'. auto.
  Qed.

  Lemma row_split j : (j < se_n e * se_L e)%nat -> (j / se_L e < se_n e /\ j mod se_L e < se_L e)%nat.
  Proof.
    intros H. pose proof (sv_L e He). split; [apply Nat.div_lt_upper_bound; lia|apply Nat.mod_upper_bound; lia].
  Qed.

  Lemma slate_log_ok kd o p : In (o, p) (slate_logs e) -> p <> 0 -> rows_ok (slate_log e kd o).
  Proof.
    intros H Hp. pose proof (sv_L e He) as HL0. pose proof (sv_n e He) as Hn0. constructor; simpl.
    - nia.
    - intros j Hj. destruct (row_split j Hj) as [H1 H2].
      destruct (log_outcome o p H Hp _ H1) as (x & s & r & q & -> & Hq & Hq0). split.
      + eapply propensity_pos; eauto. apply He.
      + apply propensity_bounds. apply He.
    - intros j Hj. destruct (row_split j Hj) as [H1 H2].
      destruct (log_outcome o p H Hp _ H1) as (x & s & r & q & -> & Hq & Hq0). apply propensity_bounds. apply He.
    - intros i j _ _ E1 E2. rewrite (Nat.div_mod i (se_L e)), (Nat.div_mod j (se_L e)) by lia. congruence.
  Qed.
  Lemma slate_log_blocks kd o : in_blocks (slate_log e kd o) (se_n e) (se_L e).
  Proof. repeat split; try apply He; auto. Qed.
  Lemma slate_log_slates kd o : slates (slate_log e kd o) (seq 0 (se_n e)).
  Proof.
    pose proof (sv_L e He). split; [apply seq_NoDup|]. intros s. rewrite in_seq. simpl. split.
    - intros Hs. exists (s * se_L e)%nat. split; [nia|]. apply Nat.div_mul; lia.
    - intros (i & Hi & <-). split; [lia|]. apply row_split; auto.
  Qed.
  Lemma slate_log_constant o : constant_in_slate (slate_log e Standard o).
  Proof.
    intros i j Hi Hj E. simpl in *. rewrite E. destruct (nth_error o (j / se_L e)) as [[[x s] r]|]; auto.
  Qed.
  Lemma slate_log_cascading o p : In (o, p) (slate_logs e) -> p <> 0 -> cascading (slate_log e Cascade o).
  Proof.
    intros H Hp i j Hi Hj E Hlt. simpl in *. rewrite E. destruct (row_split j Hj) as [H1 _].
    destruct (log_outcome o p H Hp _ H1) as (x & s & r & q & -> & Hq & Hq0).
    split; apply propensity_cascade_mono; try apply He; lia.
  Qed.

  Lemma slate_mean_blocks l n L f : in_blocks l n L -> slates l (seq 0 n) ->
    slate_mean l (seq 0 n) f = avg n (fun i => sumn L (fun k => f (i * L + k)%nat)).
  Proof.
    intros (Hn & HL & Hl & _) Hs. rewrite slate_mean_rows by auto. rewrite seq_length, Hl, sumn_block. reflexivity.
  Qed.

  Definition ips_estimator kd := match kd with Standard => sips_value | Independent => iips_value | Cascade => rips_value end.
  Lemma ips_on_log kd o p : In (o, p) (slate_logs e) -> p <> 0 -> let l := slate_log e kd o in
    ips_estimator kd (s_ids l) (s_rew l) (s_pos l) (s_p l) (s_pe l)
    = Ok (Fin (avg (se_n e) (fun i => sumn (se_L e) (fun k =>
        match nth_error o i with
        | Some (x, s, r) => nth k r 0 * (propensity kd k (se_nu e x) s / propensity kd k (se_mu e x) s)
        | None => 0 * (0 / 0) end)))).
  Proof.
    intros H Hp l. assert (Hok := slate_log_ok kd o p H Hp). fold l in Hok.
    assert (Hs := slate_log_slates kd o). fold l in Hs.
    assert (E : ips_estimator kd (s_ids l) (s_rew l) (s_pos l) (s_p l) (s_pe l)
              = Ok (Fin (slate_mean l (seq 0 (se_n e)) (fun i => sl_r l i * s_weight l i)))).
    { destruct kd; unfold ips_estimator; apply slate_value_rows; try (apply ipw_rounds; exact Hok); auto.
      - apply check_sips_rows; auto. apply slate_log_constant.
      - apply check_iips_rows; auto.
      - apply check_rips_rows; auto. eapply slate_log_cascading; eauto. }
    rewrite E. do 2 f_equal. rewrite (slate_mean_blocks l (se_n e) (se_L e)) by (auto; apply slate_log_blocks).
    apply avg_ext. intros i Hi. apply sumn_ext. intros k Hk. unfold s_weight, l, slate_log; simpl.
    destruct (divmod_block i k (se_L e) Hk) as [-> ->]. destruct (nth_error o i) as [[[x s] r]|]; reflexivity.
  Qed.

  Lemma expect_slate_round i g : expect (slate_round e i) g
    = expect (se_ctx e i) (fun x => expect (se_mu e x) (fun s => expect (se_rd e x s) (fun r => g (x, s, r)))).
  Proof.
    unfold slate_round. rewrite expect_dbind. apply expect_ext_all. intros x. rewrite expect_dbind.
    apply expect_ext_all. intros s. apply expect_dmap.
  Qed.

  Lemma ips_unbiased kd : slate_support e kd -> reward_structure e kd ->
    expects (slate_logs e) (fun o => let l := slate_log e kd o in
       ips_estimator kd (s_ids l) (s_rew l) (s_pos l) (s_p l) (s_pe l)) (slate_policy_value e).
  Proof.
    intros Hsup Hstr. eexists. split; [intros o p Ho Hp; exact (ips_on_log kd o p Ho Hp)|].
    unfold slate_logs.
    rewrite (expect_dprod_avg_opt (se_n e) (slate_round e) (fun i y => sumn (se_L e) (fun k =>
        match y with
        | Some (x, s, r) => nth k r 0 * (propensity kd k (se_nu e x) s / propensity kd k (se_mu e x) s)
        | None => 0 * (0 / 0) end))) by (apply is_dist_slate_round).
    unfold slate_policy_value. apply avg_ext. intros i Hi. rewrite expect_slate_round.
    apply expect_ext_all. intros x.
    transitivity (expect (se_mu e x) (fun s => sumn (se_L e) (fun k =>
       propensity kd k (se_nu e x) s / propensity kd k (se_mu e x) s * slate_q e x s k))).
    { apply expect_ext_all. intros s. rewrite expect_sumn. apply sumn_ext. intros k Hk.
      rewrite expect_scal_r. unfold slate_q. lra. }
    rewrite !expect_sumn. apply sumn_ext. intros k Hk.
    apply change_of_measure; [apply He| |].
    - intros s t Hst. apply Hstr; auto.
    - intros s p Hin Hp. eapply Hsup; eauto.
  Qed.
End Env.

(** ** Cascade doubly robust *)
Lemma prefix_conditional d L K cd (g : list nat -> nat -> R) k : is_dist d -> slates_of d L K -> conditional_of d L K cd ->
  (k < L)%nat ->
  expect d (fun s => sumn K (fun a => cd (firstn k s) a * g (firstn k s) a))
  = expect d (fun s => g (firstn k s) (nth k s 0%nat)).
Proof.
  intros Hd Hs Hc Hk.
  set (P := fun u => expect d (fun t => if list_eq_dec Nat.eq_dec (firstn k t) u then 1 else 0)).
  assert (HP : forall s p, In (s, p) d -> p <> 0 -> 0 < P (firstn k s)).
  { intros s p Hin Hp. unfold P. apply (expect_pos_at d _ s p); auto.
    - intros a; destruct (list_eq_dec _ _ _); lra.
    - destruct (list_eq_dec _ _ _); [lra|congruence]. }
  transitivity (expect d (fun s => expect d (fun t =>
     (if list_eq_dec Nat.eq_dec (firstn k t) (firstn k s) then 1 else 0) * (/ P (firstn k t) * g (firstn k t) (nth k t 0%nat))))).
  - apply expect_ext. intros s p Hin Hp. assert (HPs := HP s p Hin Hp).
    assert (Hlen : length (firstn k s) = k). { rewrite firstn_length. destruct (Hs s p Hin Hp). lia. }
    transitivity (sumn K (fun a => / P (firstn k s) * g (firstn k s) a *
        expect d (fun t => if list_eq_dec Nat.eq_dec (firstn (S k) t) (firstn k s ++ [a]) then 1 else 0))).
    + apply sumn_ext. intros a Ha. rewrite <- (Hc _ k a) by auto. fold (P (firstn k s)). field. lra.
    + rewrite (sumn_ext K _ (fun a => expect d (fun t => / P (firstn k s) * g (firstn k s) a *
          (if list_eq_dec Nat.eq_dec (firstn (S k) t) (firstn k s ++ [a]) then 1 else 0)))).
      2:{ intros a Ha. rewrite expect_scal. reflexivity. }
      rewrite <- expect_sumn. apply expect_ext. intros t q Ht Hq. destruct (Hs t q Ht Hq) as [Hl Hf].
      assert (Ht1 : firstn (S k) t = firstn k t ++ [nth k t 0%nat]).
      { clear - Hl Hk. revert t L Hl Hk. induction k; intros [|b t] L Hl Hk; simpl in *; try lia; auto.
        f_equal. apply (IHk t (pred L)); lia. }
      assert (Hn : (nth k t 0 < K)%nat). { rewrite Forall_forall in Hf. apply Hf. apply nth_In. lia. }
      destruct (list_eq_dec Nat.eq_dec (firstn k t) (firstn k s)) as [E|E].
      * rewrite (sumn_term K _ (nth k t 0%nat)); auto.
        -- rewrite Ht1, E. destruct (list_eq_dec _ _ _); [lra|congruence].
        -- intros a _ Hne. rewrite Ht1. destruct (list_eq_dec _ _ _) as [E'|]; [|lra].
           apply app_inj_tail in E' as [_ E']. congruence.
      * rewrite sumn_zero; [lra|]. intros a _. rewrite Ht1. destruct (list_eq_dec _ _ _) as [E'|]; [|lra].
        apply app_inj_tail in E' as [E' _]. congruence.
  - rewrite expect_swap. apply expect_ext. intros t q Ht Hq. rewrite expect_scal_r.
    assert (HPt := HP t q Ht Hq).
    replace (expect d (fun a => if list_eq_dec Nat.eq_dec (firstn k t) (firstn k a) then 1 else 0)) with (P (firstn k t)).
    + field. lra.
    + unfold P. apply expect_ext_all. intros s. destruct (list_eq_dec _ (firstn k s) (firstn k t)), (list_eq_dec _ (firstn k t) (firstn k s)); congruence.
Qed.

  Lemma agree_firstn k s t j : agree Cascade k s t = true -> (j <= S k)%nat -> firstn j s = firstn j t.
  Proof.
    unfold agree. destruct (list_eq_dec _ (firstn (S k) s) (firstn (S k) t)) as [E|]; [|discriminate]. intros _ Hj.
    assert (F : forall x : list nat, firstn j x = firstn j (firstn (S k) x)).
    { intros x. rewrite firstn_firstn. f_equal. lia. }
    rewrite (F s), (F t), E. reflexivity.
  Qed.
  Lemma nth_firstn_eq k (s : list nat) : nth k s 0%nat = nth k (firstn (S k) s) 0%nat.
  Proof. revert s; induction k; intros [|a s]; auto. exact (IHk s). Qed.


Section CascadeDR.
  Context {X : Type} (e : senv X) (He : senv_ok e) (K : nat) (qh cd : X -> list nat -> nat -> R).
  Hypothesis HK : (0 < K)%nat.
  Hypothesis Hmu : forall x, slates_of (se_mu e x) (se_L e) K.
  Hypothesis Hnu : forall x, slates_of (se_nu e x) (se_L e) K.
  Hypothesis Hcd : forall x, conditional_of (se_nu e x) (se_L e) K (cd x).
  Hypothesis Hcd1 : forall x u, sumn K (cd x u) = 1.

  Definition cdr_term (i : nat) (k : nat) (y : option (X * list nat * list R)) : R :=
    match y with
    | Some (x, s, r) =>
        propensity Cascade k (se_nu e x) s / propensity Cascade k (se_mu e x) s * (nth k r 0 - qh x (firstn k s) (nth k s 0%nat))
        + (match k with O => 1 | S j => propensity Cascade j (se_nu e x) s / propensity Cascade j (se_mu e x) s end)
          * sumn K (fun a => cd x (firstn k s) a * qh x (firstn k s) a)
    | None => 0
    end.
  Lemma cdr_on_log o p : In (o, p) (slate_logs e) -> p <> 0 -> let l := slate_log e Cascade o in
    cascade_dr_value (se_L e) K (s_ids l) (tabZ (sl_n l) (log_action e o)) (s_rew l) (s_pos l) (s_p l) (s_pe l)
      (flat2 (sl_n l) K (log_table e qh o)) (flat2 (sl_n l) K (log_table e cd o))
    = Ok (Fin (avg (se_n e) (fun i => sumn (se_L e) (fun k => cdr_term i k (nth_error o i))))).
  Proof.
    intros H Hp l. unfold l. rewrite (cascade_value _ (se_n e)).
    - do 2 f_equal. unfold cascade_dr_spec. apply avg_ext. intros i Hi. apply sumn_ext. intros k Hk.
      destruct (log_outcome e o p H Hp i Hi) as (x & s & r & q & E & _).
      unfold s_weight, log_action, log_table, cdr_term; simpl.
      destruct (divmod_block i k (se_L e) Hk) as [-> ->]. rewrite E. f_equal.
      destruct k; simpl; [reflexivity|]. unfold s_weight; simpl.
      destruct (divmod_block i k (se_L e) ltac:(lia)) as [-> ->]. rewrite E. reflexivity.
    - apply slate_log_blocks; auto.
    - eapply slate_log_ok; eauto.
    - eapply slate_log_cascading; eauto.
    - auto.
    - intros j Hj. destruct (row_split e He j Hj) as [H1 H2].
      destruct (log_outcome e o p H Hp _ H1) as (x & s & r & q & E & Hin & Hq). unfold log_action. rewrite E.
      destruct (Hmu x s q Hin Hq) as [Hl Hf]. rewrite Forall_forall in Hf. apply Hf. apply nth_In. lia.
    - intros j Hj. destruct (row_split e He j Hj) as [H1 H2].
      destruct (log_outcome e o p H Hp _ H1) as (x & s & r & q & E & Hin & Hq). unfold log_table. rewrite E. apply Hcd1.
  Qed.

  Lemma cdr_unbiased : slate_support e Cascade -> reward_structure e Cascade ->
    expects (slate_logs e) (fun o => let l := slate_log e Cascade o in
      cascade_dr_value (se_L e) K (s_ids l) (tabZ (sl_n l) (log_action e o)) (s_rew l) (s_pos l) (s_p l) (s_pe l)
      (flat2 (sl_n l) K (log_table e qh o)) (flat2 (sl_n l) K (log_table e cd o))) (slate_policy_value e).
  Proof.
    intros Hsup Hstr. eexists. split; [intros o p Ho Hp; exact (cdr_on_log o p Ho Hp)|].
    unfold slate_logs.
    rewrite (expect_dprod_avg_opt (se_n e) (slate_round e) (fun i y => sumn (se_L e) (fun k => cdr_term i k y)))
      by (apply is_dist_slate_round; auto).
    unfold slate_policy_value. apply avg_ext. intros i Hi. rewrite expect_slate_round.
    apply expect_ext_all. intros x. rewrite expect_sumn.
    set (w := fun k s => propensity Cascade k (se_nu e x) s / propensity Cascade k (se_mu e x) s).
    set (pw := fun k s => match k with O => 1 | S j => w j s end).
    transitivity (expect (se_mu e x) (fun s => sumn (se_L e) (fun k =>
       w k s * (slate_q e x s k - qh x (firstn k s) (nth k s 0%nat)) + pw k s * sumn K (fun a => cd x (firstn k s) a * qh x (firstn k s) a)))).
    { apply expect_ext_all. intros s. rewrite expect_sumn. apply sumn_ext. intros k Hk. simpl.
      assert (Hr : is_dist (se_rd e x s)) by apply He.
      rewrite expect_plus, expect_scal, expect_minus, !expect_const by auto. unfold w, pw, slate_q. destruct k; reflexivity. }
    rewrite expect_sumn. apply sumn_ext. intros k Hk.
    rewrite expect_plus. unfold w at 1. rewrite change_of_measure; [|apply He| |].
    2:{ intros s t Hst. rewrite (Hstr x s t k Hk Hst). rewrite (agree_firstn k s t k Hst) by lia.
        rewrite (nth_firstn_eq k s), (nth_firstn_eq k t), (agree_firstn k s t (S k) Hst) by lia. reflexivity. }
    2:{ intros s p Hin Hp. eapply Hsup; eauto. }
    rewrite expect_minus.
    assert (E : expect (se_mu e x) (fun s => pw k s * sumn K (fun a => cd x (firstn k s) a * qh x (firstn k s) a))
              = expect (se_nu e x) (fun s => sumn K (fun a => cd x (firstn k s) a * qh x (firstn k s) a))).
    { destruct k as [|k].
      - simpl. rewrite !expect_const by apply He. lra.
      - simpl pw. unfold w. apply change_of_measure; [apply He| |].
        + intros s t Hst. rewrite (agree_firstn k s t (S k) Hst) by lia. reflexivity.
        + intros s p Hin Hp. eapply Hsup; eauto. lia. }
    rewrite E. rewrite (prefix_conditional (se_nu e x) (se_L e) K (cd x) (qh x) k); auto; [lra|apply He].
  Qed.
End CascadeDR.
