(** * L_Tuning: lemmas about helper.py and estimators_tuning.py. *)

From Coq Require Import Sorted Permutation Reals List ZArith Bool Lia Lra.
From Verif Require Import Num NpList M_Utils M_Estimators M_Tuning S_Base S_Estimators S_Tuning
  L_Num L_Base L_Estimators L_EstProps L_Utils.
Import ListNotations.
Open Scope R_scope.

Lemma nvar_tabF n f : (0 < n)%nat -> nvar (tabF n f) = Fin (variance n f).
Proof.
  intros Hn. unfold nvar. rewrite nmean_tabF by auto. unfold tabF. rewrite map_tab.
  exact (nmean_tabF n (fun i => (f i - avg n f) * (f i - avg n f)) Hn).
Qed.

Lemma tabF_ext n f g : (forall i, (i < n)%nat -> f i = g i) -> tabF n f = tabF n g.
Proof. intros H. apply tab_ext. intros i Hi. rewrite H; auto. Qed.

Lemma variance_nonneg n f : 0 <= variance n f.
Proof.
  unfold variance, avg. destruct n.
  - simpl. unfold Rdiv. rewrite Rmult_0_l. lra.
  - apply Rmult_le_pos; [apply sumn_nonneg; intros; apply Rle_0_sqr|].
    left. apply Rinv_0_lt_compat, lt_0_INR. lia.
Qed.

Lemma nmax_Fin a b : nmax (Fin a) (Fin b) = Fin (Rmax a b).
Proof.
  unfold nmax. simpl. unfold Rmax, Rleb. destruct (Rle_dec a b); reflexivity.
Qed.

Lemma fold_nmax l a : fold_left nmax (map Fin l) (Fin a) = Fin (fold_left Rmax l a).
Proof. revert a; induction l as [|b l IH]; intros a; [reflexivity|]. simpl. rewrite nmax_Fin. apply IH. Qed.

Lemma tabF_map n f : tabF n f = map Fin (tab n f).
Proof. unfold tabF. rewrite map_tab. reflexivity. Qed.

Lemma nmaxl_tabF n f : (0 < n)%nat -> exists m, nmaxl (tabF n f) = Ok (Fin m) /\ is_max n f m.
Proof.
  intros Hn. exists (Rmaxl (tab n f)). destruct n as [|n]; [lia|].
  rewrite tabF_map, tab_S_first. split.
  - simpl. rewrite fold_nmax. reflexivity.
  - rewrite <- tab_S_first. split.
    + assert (H : In (Rmaxl (tab (S n) f)) (tab (S n) f)).
      { apply Rmaxl_In. rewrite tab_S_first. discriminate. }
      apply In_tab in H. exact H.
    + intros i Hi. apply Rmaxl_ge. apply In_tab. eauto.
Qed.

Lemma is_max_unique n f a b : is_max n f a -> is_max n f b -> a = b.
Proof.
  intros [(i & Hi & Ei) Ha] [(j & Hj & Ej) Hb]. specialize (Ha j Hj). specialize (Hb i Hi). lra.
Qed.

Lemma nmaxl_is n f m : (0 < n)%nat -> is_max n f m -> nmaxl (tabF n f) = Ok (Fin m).
Proof.
  intros Hn Hm. destruct (nmaxl_tabF n f Hn) as (m' & E & H'). rewrite E. do 2 f_equal.
  eapply is_max_unique; eauto.
Qed.

Lemma bias_ok n r w w' q : (0 < n)%nat ->
  estimate_bias_in_ope (tabF n r) (tabF n w) (tabF n w') q
  = match q with
    | None => Ok (Fin (Rabs (avg n (fun i => (w i - w' i) * r i))))
    | Some _ => estimate_bias_in_ope (tabF n r) (tabF n w) (tabF n w') q
    end.
Proof.
  intros Hn. destruct q; [reflexivity|]. unfold estimate_bias_in_ope, tabF. rewrite map_tab, !bcast2_tab.
  cbn [bind]. rewrite bcast2_tab. cbn [bind].
  change (tab n (fun i => nmul (nsub (Fin (w i)) (Fin (w' i))) (nsub (Fin (r i)) (Fin 0))))
    with (tabF n (fun i => (w i + - w' i) * (r i + - 0))).
  rewrite nmean_tabF by auto. simpl. do 3 f_equal. apply avg_ext. intros. ring.
Qed.

Lemma bias_q_ok n r w w' q : (0 < n)%nat ->
  estimate_bias_in_ope (tabF n r) (tabF n w) (tabF n w') (Some (tabF n q))
  = Ok (Fin (Rabs (avg n (fun i => (w i - w' i) * (r i - q i))))).
Proof.
  intros Hn. unfold estimate_bias_in_ope, tabF. rewrite !bcast2_tab.
  cbn [bind]. rewrite bcast2_tab. cbn [bind].
  change (tab n (fun i => nmul (nsub (Fin (w i)) (Fin (w' i))) (nsub (Fin (r i)) (Fin (q i)))))
    with (tabF n (fun i => (w i + - w' i) * (r i + - q i))).
  rewrite nmean_tabF by auto. reflexivity.
Qed.

Lemma log_delta_pos delta : 0 < delta <= 1 -> 0 < ln (2 / delta).
Proof.
  intros H. rewrite <- ln_1. apply ln_increasing; [lra|].
  apply (Rmult_lt_reg_r delta); [lra|]. unfold Rdiv. rewrite Rmult_assoc, Rinv_l; lra.
Qed.

Lemma check_scalar_delta delta : 0 <= delta <= 1 -> check_scalar (Fin delta) (Some (Fin 0)) (Some (Fin 1)) = Ok tt.
Proof.
  intros H. unfold check_scalar. simpl. rewrite (proj2 (Rltb_false delta 0)) by lra. simpl.
  rewrite (proj2 (Rltb_false 1 delta)) by lra. reflexivity.
Qed.

Lemma avg_nonneg n f : (forall i, (i < n)%nat -> 0 <= f i) -> 0 <= avg n f.
Proof.
  intros H. unfold avg. destruct n; [simpl; unfold Rdiv; rewrite Rmult_0_l; lra|].
  apply Rmult_le_pos; [apply sumn_nonneg; auto|]. left. apply Rinv_0_lt_compat, lt_0_INR. lia.
Qed.

Lemma ub_bias_ok n r w w' q b delta m : (0 < n)%nat -> 0 < delta <= 1 -> is_max n w m ->
  estimate_bias_in_ope (tabF n r) (tabF n w) (tabF n w') q = Ok (Fin b) ->
  estimate_high_probability_upper_bound_bias (tabF n r) (tabF n w) (tabF n w') q delta
  = Ok (Fin (b + sqrt (2 * avg n (fun i => w i * w i) * ln (2 / delta) / INR n)
               + 2 * m * ln (2 / delta) / (3 * INR n))).
Proof.
  intros Hn Hd Hm Hb. unfold estimate_high_probability_upper_bound_bias.
  rewrite check_scalar_delta by lra. cbn [bind]. rewrite Hb. cbn [bind].
  rewrite (proj2 (Reqb_false delta 0)) by lra. cbn [raise_if bind].
  rewrite (nmaxl_is n w m) by auto. cbn [bind].
  assert (Hn' : 0 < INR n) by (apply lt_0_INR; auto).
  pose proof (log_delta_pos delta Hd) as Hl.
  rewrite nlog_Fin by (apply Rdiv_lt_0_compat; lra).
  replace (nmean (map nsqr (tabF n w))) with (Fin (avg n (fun i => w i * w i))).
  2:{ rewrite <- nmean_tabF by auto. unfold tabF. rewrite map_tab. reflexivity. }
  unfold tabF at 1. unfold tabF at 1. rewrite !tab_length. unfold nnat. cbn [nmul].
  rewrite ndiv_Fin by lra. rewrite nsqrt_Fin.
  2:{ apply Rmult_le_pos; [|left; apply Rinv_0_lt_compat; auto].
      apply Rmult_le_pos; [|lra]. apply Rmult_le_pos; [lra|].
      apply avg_nonneg; auto. intros; apply Rle_0_sqr. }
  rewrite ndiv_Fin by lra. reflexivity.
Qed.

(** ** The modified weights computed by the code *)

Definition transform (t : tuned) (lam w : num) : num :=
  match t with
  | T_IPW | T_DR => nmin w lam
  | T_Switch => nmul w (nbool (nle w lam))
  | T_DRos => os_weight lam w
  | T_SGIPW | T_SGDR => sg_weight lam w
  end.

Lemma transform_ok t lam w : regular (kind_modifier t) lam -> 0 <= w ->
  transform t (lam_num lam) (Fin w) = Fin (modified (kind_modifier t) lam w).
Proof.
  intros Hr Hw. destruct t; simpl in *.
  1,2: destruct lam; simpl; [apply nmin_Fin|reflexivity].
  - destruct lam as [x|]; simpl in *.
    + unfold Rleb. destruct (Rle_dec w x); simpl; f_equal; ring.
    + f_equal; ring.
  - destruct lam as [x|]; simpl in *; [|reflexivity].
    apply os_weight_Fin. pose proof (Rle_0_sqr w). unfold Rsqr in *. lra.
  - destruct lam as [x|]; simpl in *; [|easy]. apply sg_weight_Fin.
    pose proof (sg_den_pos x w Hr Hw). lra.
  - destruct lam as [x|]; simpl in *; [|easy]. apply sg_weight_Fin.
    pose proof (sg_den_pos x w Hr Hw). lra.
Qed.

Lemma base_round_ok t lam l : accepted l -> is_policy l -> regular (kind_modifier t) lam ->
  base_round t (lam_num lam) (rewards l) (actions l) (pscores l) (policy l)
    (Some (model l)) (positions l)
  = Ok (tabF (lg_n l) (contribution (uses_model t) (kind_modifier t) lam l)).
Proof.
  intros H Hp Hr. destruct t; cbn [base_round uses_model kind_modifier] in *.
  - rewrite ipw_round_ok by auto. f_equal. apply tabF_ext. intros i Hi.
    unfold contribution, residual, modified. ring.
  - rewrite dr_round_ok by auto. reflexivity.
  - rewrite switch_round_ok by auto.  destruct lam; reflexivity.

  - destruct lam as [x|]; simpl in Hr.
    + unfold lam_num. rewrite dros_round_ok; auto.
      intros i Hi. pose proof (Rle_0_sqr (weight l i)). unfold Rsqr in *. lra.
    + unfold lam_num. rewrite dros_round_inf by auto. reflexivity.
  - destruct lam as [x|]; simpl in Hr; [|easy]. unfold lam_num.
    rewrite sgipw_round_ok; auto.
    + f_equal. apply tabF_ext. intros i Hi. unfold contribution, residual, modified, sg_shrink. ring.
    + intros i Hi. pose proof (sg_den_pos x _ Hr (weight_nonneg l i H Hp Hi)). lra.
  - destruct lam as [x|]; simpl in Hr; [|easy]. unfold lam_num.
    rewrite sgdr_round_ok; auto.
    intros i Hi. pose proof (sg_den_pos x _ Hr (weight_nonneg l i H Hp Hi)). lra.
Qed.

Lemma base_mse_unfold t lam l use_bound delta : accepted l -> is_policy l -> regular (kind_modifier t) lam ->
  base_mse t (lam_num lam) (rewards l) (actions l) (pscores l) (policy l)
    (Some (model l)) (positions l) use_bound delta
  = mse_from (Ok (tabF (lg_n l) (contribution (uses_model t) (kind_modifier t) lam l)))
      (rewards l) (tabF (lg_n l) (weight l))
      (tabF (lg_n l) (fun i => modified (kind_modifier t) lam (weight l i)))
      (if uses_model t then Some (tabF (lg_n l) (q_at l)) else None) use_bound delta.
Proof.
  intros H Hp Hr. rewrite <- base_round_ok by auto.
  assert (E : map (transform t (lam_num lam)) (tabF (lg_n l) (weight l))
              = tabF (lg_n l) (fun i => modified (kind_modifier t) lam (weight l i))).
  { unfold tabF. rewrite map_tab. apply tab_ext. intros i Hi. apply transform_ok; auto.
    apply weight_nonneg; auto. }
  rewrite <- E. destruct t; cbn [base_mse base_round uses_model];
    unfold ipw_mse, sgipw_mse, dr_mse, switch_mse, dros_mse, sgdr_mse, dr_like_mse;
    rewrite weights_ok by auto; cbn [bind]; rewrite ?q_factual_ok by auto; cbn [bind]; reflexivity.
Qed.

Lemma mse_plain_ok t lam l delta : accepted l -> is_policy l -> regular (kind_modifier t) lam ->
  base_mse t (lam_num lam) (rewards l) (actions l) (pscores l) (policy l)
    (Some (model l)) (positions l) false delta
  = Ok (Fin (sampling_variance (uses_model t) (kind_modifier t) lam l
             + spec_bias (uses_model t) (kind_modifier t) lam l
               * spec_bias (uses_model t) (kind_modifier t) lam l)).
Proof.
  intros H Hp Hr. rewrite base_mse_unfold by auto. unfold mse_from. cbn [bind].
  pose proof (acc_n l H) as Hn. rewrite nvar_tabF by auto.
  assert (E : estimate_bias_in_ope (rewards l) (tabF (lg_n l) (weight l))
      (tabF (lg_n l) (fun i => modified (kind_modifier t) lam (weight l i)))
      (if uses_model t then Some (tabF (lg_n l) (q_at l)) else None)
      = Ok (Fin (spec_bias (uses_model t) (kind_modifier t) lam l))).
  { unfold rewards. destruct (uses_model t); [rewrite bias_q_ok by auto|rewrite bias_ok by auto]; reflexivity. }
  rewrite E. cbn [bind]. unfold rewards, tabF. rewrite tab_length. unfold nnat.
  rewrite ndiv_Fin; [reflexivity|]. apply not_0_INR. lia.
Qed.

Lemma mse_bound_ok t lam l delta m : accepted l -> is_policy l -> regular (kind_modifier t) lam ->
  0 < delta <= 1 -> is_max (lg_n l) (weight l) m ->
  base_mse t (lam_num lam) (rewards l) (actions l) (pscores l) (policy l)
    (Some (model l)) (positions l) true delta
  = Ok (Fin (sampling_variance (uses_model t) (kind_modifier t) lam l
             + (spec_bias (uses_model t) (kind_modifier t) lam l + spec_deviation l m delta)
               * (spec_bias (uses_model t) (kind_modifier t) lam l + spec_deviation l m delta))).
Proof.
  intros H Hp Hr Hd Hm. rewrite base_mse_unfold by auto. unfold mse_from. cbn [bind].
  pose proof (acc_n l H) as Hn. rewrite nvar_tabF by auto.
  assert (E : estimate_bias_in_ope (rewards l) (tabF (lg_n l) (weight l))
      (tabF (lg_n l) (fun i => modified (kind_modifier t) lam (weight l i)))
      (if uses_model t then Some (tabF (lg_n l) (q_at l)) else None)
      = Ok (Fin (spec_bias (uses_model t) (kind_modifier t) lam l))).
  { unfold rewards. destruct (uses_model t); [rewrite bias_q_ok by auto|rewrite bias_ok by auto]; reflexivity. }
  unfold rewards in *. rewrite (ub_bias_ok _ _ _ _ _ _ delta m Hn Hd Hm E). cbn [bind].
  unfold tabF. rewrite tab_length. unfold nnat.
  rewrite ndiv_Fin by (apply not_0_INR; lia). cbn [nadd nsqr nmul]. do 2 f_equal. f_equal.
  unfold spec_deviation. f_equal; ring.
Qed.

Lemma deviation_nonneg l m delta : accepted l -> is_policy l -> 0 < delta <= 1 ->
  is_max (lg_n l) (weight l) m -> 0 <= spec_deviation l m delta.
Proof.
  intros H Hp Hd [(i & Hi & Ei) _]. unfold spec_deviation.
  pose proof (log_delta_pos delta Hd). pose proof (weight_nonneg l i H Hp Hi).
  pose proof (sqrt_pos (2 * avg (lg_n l) (fun i0 => weight l i0 * weight l i0) * ln (2 / delta) / INR (lg_n l))).
  assert (0 < INR (lg_n l)) by (apply lt_0_INR; apply H).
  assert (0 <= 2 * m * ln (2 / delta) / (3 * INR (lg_n l))).
  { apply Rmult_le_pos; [|left; apply Rinv_0_lt_compat; lra]. apply Rmult_le_pos; lra. }
  lra.
Qed.

(** ** Sorting the candidates *)

Lemma ninsert_perm le x l : Permutation (ninsert le x l) (x :: l).
Proof.
  induction l as [|y l IH]; simpl; auto. destruct (le x y); auto.
  rewrite IH. apply perm_swap.
Qed.
Lemma nsort_perm le l : Permutation (nsort le l) l.
Proof. induction l; simpl; auto. rewrite ninsert_perm. auto. Qed.

Lemma ninsert_sorted (le : num -> num -> bool) (P : num -> Prop)
  (Htot : forall x y, P x -> P y -> le x y = true \/ le y x = true)
  (Htr : forall x y z, P x -> P y -> P z -> le x y = true -> le y z = true -> le x z = true) x l :
  P x -> Forall P l -> StronglySorted (fun a b => le a b = true) l ->
  StronglySorted (fun a b => le a b = true) (ninsert le x l).
Proof.
  intros Hx HP HS. induction l as [|y l IH]; simpl.
  - constructor; constructor.
  - inversion HP as [|? ? Hy HPl]; subst. inversion HS as [|? ? HSl HF]; subst.
    destruct (le x y) eqn:E.
    + constructor; auto. constructor; auto.
      rewrite Forall_forall in *. intros z Hz. apply (Htr x y z); auto.
    + constructor; auto. assert (Hyx : le y x = true) by (destruct (Htot x y); auto; congruence).
      rewrite Forall_forall in *. intros z Hz.
      apply (Permutation_in _ (ninsert_perm le x l)) in Hz. destruct Hz as [<-|Hz]; auto.
Qed.

Lemma nsort_sorted (le : num -> num -> bool) (P : num -> Prop)
  (Htot : forall x y, P x -> P y -> le x y = true \/ le y x = true)
  (Htr : forall x y z, P x -> P y -> P z -> le x y = true -> le y z = true -> le x z = true) l :
  Forall P l -> StronglySorted (fun a b => le a b = true) (nsort le l).
Proof.
  induction l as [|x l IH]; simpl; intros HP; [constructor|]. inversion HP; subst.
  apply (ninsert_sorted le P Htot Htr); auto.
  rewrite Forall_forall in *. intros z Hz. apply (Permutation_in _ (nsort_perm le l)) in Hz. auto.
Qed.

Lemma nle_total x y : x <> NaN -> y <> NaN -> nle x y = true \/ nle y x = true.
Proof.
  intros Hx Hy. destruct x, y; simpl; auto; try easy. rewrite !Rleb_true. lra.
Qed.
Lemma nle_trans x y z : nle x y = true -> nle y z = true -> nle x z = true.
Proof.
  destruct x, y, z; simpl; auto; try easy. rewrite !Rleb_true. lra.
Qed.

(** First-minimum of a list of scored items. *)
Lemma min_item_spec (s : num -> R) ks : ks <> [] ->
  exists k pre post, min_item (map (fun k => (k, Fin (s k))) ks) = Ok k /\ ks = pre ++ k :: post /\
    (forall h, In h pre -> s k < s h) /\ (forall h, In h post -> s k <= s h).
Proof.
  destruct ks as [|x r]; [easy|]. intros _. simpl.
  assert (G : forall r b pre, exists k pre' post,
      fold_left (fun best y : num * num => if nlt (snd y) (snd best) then y else best)
        (map (fun k => (k, Fin (s k))) r) (b, Fin (s b)) = (k, Fin (s k)) /\
      ((forall h, In h pre -> s b < s h) -> 
       (pre ++ b :: r = pre' ++ k :: post) /\ (forall h, In h pre' -> s k < s h) /\ (forall h, In h post -> s k <= s h)) ).
  { assert (G : forall r b pre mid, exists k pre' post,
      fold_left (fun best y : num * num => if nlt (snd y) (snd best) then y else best)
        (map (fun k => (k, Fin (s k))) r) (b, Fin (s b)) = (k, Fin (s k)) /\
      ((forall h, In h pre -> s b < s h) -> (forall h, In h mid -> s b <= s h) ->
       (pre ++ b :: mid ++ r = pre' ++ k :: post) /\ (forall h, In h pre' -> s k < s h) /\ (forall h, In h post -> s k <= s h)) ).
    { clear. induction r as [|y r IH]; intros b pre mid; simpl.
      - exists b, pre, (mid ++ []). split; auto. intros H1 H2. split; [reflexivity|]. split; auto.
        rewrite app_nil_r. auto.
      - destruct (Rltb (s y) (s b)) eqn:E.
        + destruct (IH y (pre ++ b :: mid) []) as (k & p & q & E1 & E2). exists k, p, q. split; auto.
          intros H1 H2. apply Rltb_true in E.
          destruct E2 as (E2 & E3).
          * intros h Hh. apply in_app_iff in Hh as [Hh|[<-|Hh]]; auto.
            -- specialize (H1 h Hh). lra.
            -- specialize (H2 h Hh). lra.
          * intros h [].
          * split; auto. rewrite <- E2. rewrite <- app_assoc. reflexivity.
        + destruct (IH b pre (mid ++ [y])) as (k & p & q & E1 & E2). exists k, p, q. split; auto.
          intros H1 H2. apply Rltb_false in E.
          destruct E2 as (E2 & E3); auto.
          * intros h Hh. apply in_app_iff in Hh as [Hh|[<-|[]]]; auto.
          * split; auto. rewrite <- E2. rewrite <- app_assoc. reflexivity. }
    intros r0 b pre. destruct (G r0 b pre []) as (k & p & q & E1 & E2). exists k, p, q. split; auto.
    intros H1. apply E2; auto. intros h []. }
  destruct (G r x []) as (k & p & q & E1 & E2). exists k, p, q. rewrite E1. split; auto.
  apply E2. intros h [].
Qed.

Lemma neqb_eq x y : neqb x y = true -> x = y.
Proof. destruct x, y; simpl; auto; try easy. rewrite Reqb_true. congruence. Qed.
Lemma neqb_refl x : x <> NaN -> neqb x x = true.
Proof. destruct x; simpl; auto. intros _. apply Reqb_true; reflexivity. Qed.

(** The score dictionary. *)
Lemma dict_set_map (f : num -> num) ks k : k <> NaN ->
  dict_set (map (fun k => (k, f k)) ks) k (f k)
  = map (fun k => (k, f k)) (if existsb (fun k' => neqb k' k) ks then ks else ks ++ [k]).
Proof.
  intros Hk. induction ks as [|a ks IH]; simpl; auto. destruct (neqb a k) eqn:E; simpl.
  - apply neqb_eq in E. subst a. reflexivity.
  - rewrite IH. destruct (existsb (fun k' => neqb k' k) ks); reflexivity.
Qed.

Lemma dict_fold (le : num -> num -> bool) (f : num -> num) (score : num -> res num) lams :
  (forall h, In h lams -> h <> NaN /\ score h = Ok (f h)) ->
  StronglySorted (fun a b => le a b = true) lams ->
  exists ks,
    fold_left (fun acc h => d <- acc ;; s <- score h ;; Ok (dict_set d h s)) lams (Ok [])
      = Ok (map (fun k => (k, f k)) ks) /\
    (forall h, In h ks <-> In h lams) /\ StronglySorted (fun a b => le a b = true) ks /\
    hd_error ks = hd_error lams.
Proof.
  intros H HS.
  assert (G : forall lams ks0, (forall h, In h lams -> h <> NaN /\ score h = Ok (f h)) ->
    StronglySorted (fun a b => le a b = true) (ks0 ++ lams) ->
    exists ks,
    fold_left (fun acc h => d <- acc ;; s <- score h ;; Ok (dict_set d h s)) lams
        (Ok (map (fun k => (k, f k)) ks0)) = Ok (map (fun k => (k, f k)) ks) /\
    (forall h, In h ks <-> In h (ks0 ++ lams)) /\ StronglySorted (fun a b => le a b = true) ks /\
    hd_error ks = hd_error (ks0 ++ lams)).
  { clear. induction lams as [|h lams IH]; intros ks0 H HS; simpl.
    - exists ks0. rewrite app_nil_r in *. repeat split; auto.
    - destruct (H h (or_introl eq_refl)) as [Hn E]. rewrite E. cbn [bind].
      rewrite dict_set_map by auto.
      destruct (existsb (fun k' => neqb k' h) ks0) eqn:Ex.
      + destruct (IH ks0) as (ks & E1 & E2 & E3 & E4).
        * intros h' Hh'. apply H. right; auto.
        * clear -HS. induction ks0 as [|a ks0 IH]; simpl in *.
          -- inversion HS; auto.
          -- inversion HS as [|? ? HS' HF]; subst. constructor; auto.
             rewrite Forall_forall in *. intros z Hz. apply HF. apply in_app_iff in Hz.
             apply in_app_iff. destruct Hz; auto. right; right; auto.
        * exists ks. split; auto. apply existsb_exists in Ex as (k & Hk & Ek). apply neqb_eq in Ek. subst k.
          split; [|split; auto].
          -- intros h'. rewrite E2, !in_app_iff. simpl. intuition. subst; auto.
          -- rewrite E4. destruct ks0; [easy|reflexivity].
      + destruct (IH (ks0 ++ [h])) as (ks & E1 & E2 & E3 & E4).
        * intros h' Hh'. apply H. right; auto.
        * rewrite <- app_assoc. exact HS.
        * exists ks. split; auto. rewrite <- app_assoc in E2, E4. simpl in E2, E4. auto. }
  destruct (G lams [] H HS) as (ks & E). exists ks. exact E.
Qed.

Lemma StronglySorted_app {A} (R : A -> A -> Prop) l k r : StronglySorted R (l ++ k :: r) ->
  (forall h, In h l -> R h k) /\ (forall h, In h r -> R k h).
Proof.
  induction l as [|a l IH]; simpl; intros H; inversion H as [|? ? HS HF]; subst; rewrite Forall_forall in HF.
  - split; auto. intros h [].
  - destruct (IH HS) as [H1 H2]. split; auto. intros h [<-|Hh]; auto. apply HF. apply in_app_iff. right; left; auto.
Qed.

(** ** Calling a tuning object *)

Lemma uses_model_ok t : needs_model t = uses_model t.
Proof. destruct t; reflexivity. Qed.

Definition model_arg (t : tuned) (l : blog) : option arr3 := if uses_model t then Some (model l) else None.

Lemma base_round_arg t lam l : base_round t lam (rewards l) (actions l) (pscores l) (policy l) (model_arg t l) (positions l)
  = base_round t lam (rewards l) (actions l) (pscores l) (policy l) (Some (model l)) (positions l).
Proof. destruct t; reflexivity. Qed.
Lemma base_mse_arg t lam l b d : base_mse t lam (rewards l) (actions l) (pscores l) (policy l) (model_arg t l) (positions l) b d
  = base_mse t lam (rewards l) (actions l) (pscores l) (policy l) (Some (model l)) (positions l) b d.
Proof. destruct t; reflexivity. Qed.

Lemma base_value_ok t lam use_est l ps arg eps : accepted l -> is_policy l -> regular (kind_modifier t) lam ->
  position_arg l arg -> pscore_arg l use_est ps eps ->
  base_value t (lam_num lam) use_est (mkTinput (rewards l) (actions l) (policy l) (model_arg t l) ps arg eps)
  = Ok (Fin (spec_value (uses_model t) (kind_modifier t) lam l)).
Proof.
  intros H Hp Hr Ha Hps. pose proof (base_round_ok t lam l H Hp Hr) as E. unfold spec_value.
  destruct t; cbn [base_value model_arg uses_model ti_q ti_reward ti_action ti_dist ti_ps ti_pos ti_eps];
    cbn [base_round uses_model] in E;
    unfold ipw_value, sgipw_value, dr_value, switch_value, dros_value, sgdr_value;
    first [apply ipw_like_value_ok | apply dr_like_value_ok]; auto.
Qed.

Lemma public_check_ok o l ps arg eps : accepted l -> position_arg l arg -> pscore_arg l (tn_use_est o) ps eps ->
  public_check o (tuning_call l ps arg eps) = Ok (pscores l, model_arg (tn_kind o) l).
Proof.
  intros H Ha Hps. unfold public_check, tuning_call, model_arg. cbn [ti_q ti_reward ti_action ti_dist ti_ps ti_pos ti_eps].
  rewrite uses_model_ok, (choose_pscore_ok _ l) by auto.
  destruct (uses_model (tn_kind o)); cbn [bind]; rewrite check_ok by auto; reflexivity.
Qed.

Lemma position_arg_positions l : position_arg l (Some (positions l)).
Proof. left; reflexivity. Qed.

(** The object after a call: unchanged, or with the selected hyper-parameter stored. *)
Lemma tuner_value_ok argsort ppf o l ps arg eps :
  accepted l -> is_policy l -> position_arg l arg -> pscore_arg l (tn_use_est o) ps eps ->
  supports (tn_kind o) (tn_use_est o) ->
  tuner_value argsort ppf o (tuning_call l ps arg eps)
  = match (match tn_best o with
           | Some h => Ok h
           | None => tune argsort ppf o (rewards l) (actions l) (pscores l) (policy l) (model_arg (tn_kind o) l) (positions l)
           end) with
    | Err e => (o, Err e)
    | Ok h => (match tn_best o with Some _ => o | None => set_best o h end,
               base_value (tn_kind o) h (tn_use_est o)
                 (mkTinput (rewards l) (actions l) (policy l) (model_arg (tn_kind o) l) (Some (pscores l))
                    (Some (positions l)) (if forwards_estimated_pscore (tn_kind o) then eps else None)))
    end.
Proof.
  intros H Hp Ha Hps Hs. unfold tuner_value. rewrite public_check_ok by auto.
  unfold inner_input, tuning_call, ensure_tuned. cbn [ti_q ti_reward ti_action ti_dist ti_ps ti_pos ti_eps].
  rewrite default_position_ok by auto.
  assert (E : choose_pscore (tn_use_est o) (Some (pscores l))
     (if forwards_estimated_pscore (tn_kind o) then eps else None) = Ok (pscores l)).
  { apply choose_pscore_ok. unfold pscore_arg in *. destruct (tn_use_est o) eqn:E; auto.
    destruct (tn_kind o); simpl in *; auto; try easy. }
  rewrite E. cbn [bind]. destruct (tn_best o) as [h|]; [reflexivity|].
  destruct (tune argsort ppf o (rewards l) (actions l) (pscores l) (policy l) (model_arg (tn_kind o) l) (positions l));
    reflexivity.
Qed.

Lemma inner_pscore t use_est l ps eps : supports t use_est -> pscore_arg l use_est ps eps ->
  pscore_arg l use_est (Some (pscores l)) (if forwards_estimated_pscore t then eps else None).
Proof. unfold pscore_arg. destruct use_est; auto. destruct t; simpl; auto; easy. Qed.

Lemma fresh_value argsort ppf o l ps arg eps lam :
  accepted l -> is_policy l -> position_arg l arg -> pscore_arg l (tn_use_est o) ps eps ->
  supports (tn_kind o) (tn_use_est o) -> regular (kind_modifier (tn_kind o)) lam -> tn_best o = None ->
  tune argsort ppf o (rewards l) (actions l) (pscores l) (policy l) (model_arg (tn_kind o) l) (positions l)
    = Ok (lam_num lam) ->
  tuner_value argsort ppf o (tuning_call l ps arg eps)
  = (set_best o (lam_num lam), Ok (Fin (spec_value (uses_model (tn_kind o)) (kind_modifier (tn_kind o)) lam l))).
Proof.
  intros. rewrite tuner_value_ok by auto. rewrite H5, H6. f_equal.
  apply base_value_ok; auto using position_arg_positions. eapply inner_pscore; eauto.
Qed.

Lemma remembered_value argsort ppf o l ps arg eps lam :
  accepted l -> is_policy l -> position_arg l arg -> pscore_arg l (tn_use_est o) ps eps ->
  supports (tn_kind o) (tn_use_est o) -> regular (kind_modifier (tn_kind o)) lam -> tn_best o = Some (lam_num lam) ->
  tuner_value argsort ppf o (tuning_call l ps arg eps)
  = (o, Ok (Fin (spec_value (uses_model (tn_kind o)) (kind_modifier (tn_kind o)) lam l))).
Proof.
  intros. rewrite tuner_value_ok by auto. rewrite H5. f_equal.
  apply base_value_ok; auto using position_arg_positions. eapply inner_pscore; eauto.
Qed.

(** ** The candidates *)

Lemma lam_num_not_nan lam : lam_num lam <> NaN.
Proof. destruct lam; discriminate. Qed.
Lemma lam_num_inj a b : lam_num a = lam_num b -> a = b.
Proof. destruct a, b; simpl; congruence. Qed.
Lemma lam_ge_iff a b : lam_ge a b <-> nle (lam_num b) (lam_num a) = true.
Proof. destruct a, b; simpl; rewrite ?Rleb_true; try easy; tauto. Qed.

Definition order (t : tuned) : num -> num -> bool :=
  match t with T_IPW | T_DR | T_Switch => fun x y => nle y x | _ => nle end.

Lemma make_tuner_inv t lams m b d ue o : make_tuner t lams m b d ue = Ok o ->
  o = mkTuner t (nsort (order t) lams) m b d ue None /\ lams <> [] /\ 0 <= d <= 1.
Proof.
  unfold make_tuner. destruct lams as [|h r]; [discriminate|].
  destruct (check_lambdas _ _); cbn [bind]; [|discriminate].
  unfold check_scalar. simpl.
  destruct (Rltb d 0) eqn:E1; [discriminate|]. simpl.
  destruct (Rltb 1 d) eqn:E2; [discriminate|]. simpl. intros E. inversion E; subst.
  apply Rltb_false in E1. apply Rltb_false in E2. split; [|split; [discriminate|lra]].
  unfold sort_lambdas, order. destruct t; reflexivity.
Qed.

Lemma order_sorted t lams : Forall (fun x => x <> NaN) lams ->
  StronglySorted (fun a b => order t a b = true) (nsort (order t) lams).
Proof.
  intros H. apply (nsort_sorted (order t) (fun x => x <> NaN)); auto.
  - intros x y Hx Hy. destruct t; simpl; first [apply nle_total; auto | (destruct (nle_total x y); auto)].
  - intros x y z _ _ _. destruct t; simpl; intros; eapply nle_trans; eauto.
Qed.

Lemma preferred_iff t a b : preferred (kind_modifier t) a b <-> order t (lam_num a) (lam_num b) = true.
Proof. destruct t; simpl; apply lam_ge_iff. Qed.

(** MSE tuning. *)
Lemma tune_mse_ok o l (lams : list (option R)) (s : option R -> R) :
  lams <> [] -> tn_lambdas o = nsort (order (tn_kind o)) (map lam_num lams) ->
  (forall lam, In lam lams ->
     base_mse (tn_kind o) (lam_num lam) (rewards l) (actions l) (pscores l) (policy l)
       (model_arg (tn_kind o) l) (positions l) (tn_bound o) (tn_delta o) = Ok (Fin (s lam))) ->
  exists lam, In lam lams /\
    tune_mse o (rewards l) (actions l) (pscores l) (policy l) (model_arg (tn_kind o) l) (positions l) = Ok (lam_num lam) /\
    (forall lam', In lam' lams -> s lam <= s lam') /\
    (forall lam', In lam' lams -> s lam' = s lam -> preferred (kind_modifier (tn_kind o)) lam lam').
Proof.
  intros Hne HL Hs. set (t := tn_kind o) in *.
  set (unl := fun h => match h with Fin x => Some x | _ => None end).
  assert (Hun : forall lam, unl (lam_num lam) = lam) by (intros [x|]; reflexivity).
  assert (Hin : forall h, In h (tn_lambdas o) <-> exists lam, h = lam_num lam /\ In lam lams).
  { intros h. rewrite HL. split.
    - intros Hh. apply (Permutation_in _ (nsort_perm _ _)) in Hh. apply in_map_iff in Hh as (x & <- & Hx). eauto.
    - intros (x & -> & Hx). apply (Permutation_in _ (Permutation_sym (nsort_perm _ _))). apply in_map; auto. }
  assert (HNN : Forall (fun x => x <> NaN) (map lam_num lams)).
  { apply Forall_forall. intros x Hx. apply in_map_iff in Hx as (y & <- & _). apply lam_num_not_nan. }
  assert (HS : StronglySorted (fun a b => order t a b = true) (tn_lambdas o)).
  { rewrite HL. apply order_sorted; auto. }
  destruct (dict_fold (order t) (fun h => Fin (s (unl h)))
    (fun h => base_mse t h (rewards l) (actions l) (pscores l) (policy l) (model_arg t l) (positions l) (tn_bound o) (tn_delta o))
    (tn_lambdas o)) as (ks & E1 & E2 & E3 & E4); auto.
  { intros h Hh. apply Hin in Hh as (lam & -> & Hlam). split; [apply lam_num_not_nan|].
    rewrite Hun. apply Hs; auto. }
  destruct (min_item_spec (fun h => s (unl h)) ks) as (k & pre & post & E5 & E6 & E7 & E8).
  { intros ->. destruct lams as [|x r]; [easy|]. apply (proj2 (E2 (lam_num x))). apply Hin. exists x. split; auto. left; auto. }
  assert (Hk : In k ks) by (rewrite E6; apply in_app_iff; right; left; auto).
  apply E2, Hin in Hk as (lam & -> & Hlam). exists lam. split; auto.
  assert (Hall : forall lam', In lam' lams -> In (lam_num lam') pre \/ lam_num lam' = lam_num lam \/ In (lam_num lam') post).
  { intros lam' Hl'. assert (Hi : In (lam_num lam') ks) by (apply E2, Hin; eauto).
    rewrite E6 in Hi. apply in_app_iff in Hi as [Hi|[Hi|Hi]]; auto. }
  rewrite Hun in E7, E8.
  split; [|split].
  - unfold tune_mse. fold t. rewrite E1. cbn [bind]. exact E5.
  - intros lam' Hl'. destruct (Hall lam' Hl') as [Hi|[Hi|Hi]].
    + specialize (E7 _ Hi). rewrite Hun in E7. lra.
    + apply lam_num_inj in Hi. subst. lra.
    + specialize (E8 _ Hi). rewrite Hun in E8. lra.
  - intros lam' Hl' Heq. apply preferred_iff. destruct (Hall lam' Hl') as [Hi|[Hi|Hi]].
    + specialize (E7 _ Hi). rewrite Hun in E7. lra.
    + rewrite Hi. destruct t, lam; simpl; auto; apply Rleb_true; lra.
    + rewrite E6 in E3. apply StronglySorted_app in E3 as [_ E3]. apply E3; auto.
Qed.

(** ** SLOPE *)

Lemma FOP_snoc {A} (R : A -> A -> Prop) l x :
  ForallOrdPairs R l -> (forall y, In y l -> R y x) -> ForallOrdPairs R (l ++ [x]).
Proof.
  induction l as [|a l IH]; simpl; intros H Hx.
  - constructor; constructor.
  - inversion H as [|? ? HF HP]; subst. constructor.
    + apply Forall_app. split; auto.
    + apply IH; auto.
Qed.

Definition tc_compat (tc : list (num * num)) (j i : nat) : bool :=
  nle (nabs (nsub (fst (nth j tc (NaN, NaN))) (fst (nth i tc (NaN, NaN)))))
      (nadd (snd (nth i tc (NaN, NaN))) (nmul (Fin (sqrt 6 - 1)) (snd (nth j tc (NaN, NaN))))).

Lemma slope_loop_spec tc idx : forall pre prev,
  ForallOrdPairs (fun j i => tc_compat tc j i = true) (pre ++ [prev]) ->
  exists pre' post,
    pre ++ prev :: idx = pre' ++ slope_loop tc prev (map (fun i => nth i tc (NaN, NaN)) (pre ++ [prev])) idx :: post /\
    ForallOrdPairs (fun j i => tc_compat tc j i = true)
      (pre' ++ [slope_loop tc prev (map (fun i => nth i tc (NaN, NaN)) (pre ++ [prev])) idx]) /\
    match post with
    | [] => True
    | nxt :: _ => exists j, In j (pre' ++ [slope_loop tc prev (map (fun i => nth i tc (NaN, NaN)) (pre ++ [prev])) idx])
        /\ tc_compat tc j nxt = false
    end.
Proof.
  induction idx as [|i rest IH]; intros pre prev HF.
  - simpl. exists pre, []. auto.
  - simpl. destruct (nth i tc (NaN, NaN)) as [th c] eqn:E.
    destruct (slope_compatible th c (map (fun i => nth i tc (NaN, NaN)) (pre ++ [prev]))) eqn:Ec.
    + specialize (IH (pre ++ [prev]) i).
      rewrite map_app in IH. simpl in IH. rewrite E in IH.
      replace (pre ++ prev :: i :: rest) with ((pre ++ [prev]) ++ i :: rest) by (rewrite <- app_assoc; reflexivity).
      apply IH. apply FOP_snoc; auto. intros y Hy.
      unfold slope_compatible in Ec. rewrite forallb_forall in Ec.
      unfold tc_compat. rewrite E. simpl. apply (Ec (nth y tc (NaN, NaN))).
      apply in_map_iff. eauto.
    + exists pre, (i :: rest). split; auto. split; auto.
      unfold slope_compatible in Ec.
      apply not_true_iff_false in Ec. rewrite forallb_forall in Ec.
      assert (G : forall l, (~ forall x, In x (map (fun i => nth i tc (NaN, NaN)) l) ->
         nle (nabs (nsub (fst x) th)) (nadd c (nmul (Fin (sqrt 6 - 1)) (snd x))) = true) ->
         exists j, In j l /\ tc_compat tc j i = false).
      { clear -E. induction l as [|a l IH]; simpl; intros H.
        { exfalso. apply H. intros x []. }
        destruct (tc_compat tc a i) eqn:Ea; [|exists a; auto].
        destruct IH as (j & Hj & Ej); [|exists j; auto]. intros Hc. apply H. intros x [<-|Hx].
        { unfold tc_compat in Ea. rewrite E in Ea. exact Ea. }
        apply (Hc x Hx). }
      apply G; auto.
Qed.

Lemma is_argsort_perm xs idx : is_argsort xs idx -> Permutation idx (seq 0 (length xs)).
Proof.
  intros (H1 & H2 & H3 & _). apply NoDup_Permutation_bis; auto.
  - rewrite seq_length. lia.
  - intros i Hi. apply in_seq. specialize (H3 i Hi). lia.
Qed.

Lemma map_nth_seq {A} (l : list A) d : map (fun i => nth i l d) (seq 0 (length l)) = l.
Proof.
  induction l as [|a l IH]; simpl; auto. f_equal. rewrite <- seq_shift, map_map. exact IH.
Qed.

Lemma StronglySorted_nth {A} (R : A -> A -> Prop) l d :
  (forall j k, (j < k < length l)%nat -> R (nth j l d) (nth k l d)) -> StronglySorted R l.
Proof.
  induction l as [|a l IH]; intros H; constructor.
  - apply IH. intros j k Hj. apply (H (S j) (S k)). simpl; lia.
  - apply Forall_forall. intros x Hx. apply (In_nth _ _ d) in Hx as (k & Hk & <-).
    apply (H 0%nat (S k)). simpl; lia.
Qed.

Lemma nth_map_in {A B} (f : A -> B) l i d d' : (i < length l)%nat -> nth i (map f l) d' = f (nth i l d).
Proof. revert i. induction l as [|a l IH]; simpl; intros i Hi; [lia|]. destruct i; auto. apply IH. lia. Qed.

Lemma tune_slope_ok argsort ppf o l (lams : list (option R)) T (theta c : option R -> R) :
  lams <> [] -> tn_lambdas o = map lam_num lams ->
  (forall xs, is_argsort xs (argsort xs)) ->
  0 <= tn_delta o <= 1 -> (1 < lg_n l)%nat -> accepted l ->
  ppf (lg_n l - 1)%nat (1 - tn_delta o) = Fin T ->
  (forall lam, In lam lams -> exists f,
     base_round (tn_kind o) (lam_num lam) (rewards l) (actions l) (pscores l) (policy l)
       (model_arg (tn_kind o) l) (positions l) = Ok (tabF (lg_n l) f) /\
     theta lam = avg (lg_n l) f /\ c lam = sqrt (variance (lg_n l) f / (INR (lg_n l) - 1)) * T) ->
  exists visit lam, Permutation visit lams /\ StronglySorted (fun a b => c b <= c a) visit /\
    tune_slope argsort ppf o (rewards l) (actions l) (pscores l) (policy l) (model_arg (tn_kind o) l) (positions l)
      = Ok (lam_num lam) /\ slope_choice theta c visit lam.
Proof.
  intros Hne HL Ha Hd Hn Hacc HT Hb. unfold tune_slope. rewrite HL.
  assert (Hn1 : 0 < INR (lg_n l) - 1) by (apply lt_1_INR in Hn; lra).
  assert (Etc : mapM (fun h : num =>
     rr <- base_round (tn_kind o) h (rewards l) (actions l) (pscores l) (policy l) (model_arg (tn_kind o) l) (positions l);;
     lb <- estimate_student_t_lower_bound ppf rr (tn_delta o);; Ok (nmean rr, nsub (nmean rr) lb)) (map lam_num lams)
     = Ok (map (fun lam => (Fin (theta lam), Fin (c lam))) lams)).
  { clear Hne HL. induction lams as [|x r IH]; [reflexivity|].
    cbn [map mapM]. destruct (Hb x (or_introl eq_refl)) as (f & E1 & E2 & E3). rewrite E1. cbn [bind].
    unfold estimate_student_t_lower_bound at 1. rewrite check_scalar_delta by auto. cbn [bind].
    replace (length (tabF (lg_n l) f)) with (lg_n l) by (symmetry; apply tab_length). rewrite HT, nvar_tabF, nmean_tabF by lia.
    rewrite ndiv_Fin by lra.
    rewrite nsqrt_Fin.
    2:{ apply Rmult_le_pos; [apply variance_nonneg|left; apply Rinv_0_lt_compat; auto]. }
    cbn [nmul nadd bind]. rewrite IH by (intros; apply Hb; right; auto). cbn [bind].
    do 2 f_equal. rewrite E2, E3. f_equal. unfold nsub. simpl. f_equal. ring. }
  rewrite Etc. cbn [bind]. rewrite map_map. cbn [snd].
  set (ws := map (fun lam => Fin (c lam)) lams).
  pose proof (Ha ws) as Hs. pose proof (is_argsort_perm _ _ Hs) as HP.
  assert (Hlen : length ws = length lams) by (unfold ws; apply map_length).
  destruct Hs as (_ & Hs2 & Hs3 & Hs4).
  set (idx := rev (argsort ws)) in *.
  assert (HPi : Permutation idx (seq 0 (length lams))).
  { unfold idx. rewrite <- Permutation_rev. rewrite <- Hlen. exact HP. }
  set (tc := map (fun lam => (Fin (theta lam), Fin (c lam))) lams).
  set (g := fun i => nth i lams None).
  assert (Hrange : forall i, In i idx -> (i < length lams)%nat).
  { intros i Hi. apply (Permutation_in _ HPi) in Hi. apply in_seq in Hi. lia. }
  assert (Htc : forall i, (i < length lams)%nat -> nth i tc (NaN, NaN) = (Fin (theta (g i)), Fin (c (g i)))).
  { intros i Hi. unfold tc, g. apply (nth_map_in (fun lam => (Fin (theta lam), Fin (c lam)))); auto. }
  assert (Hcomp : forall j i, In j idx -> In i idx -> tc_compat tc j i = true <-> slope_ok theta c (g j) (g i)).
  { intros j i Hj Hi. unfold tc_compat, slope_ok. rewrite !Htc by auto. simpl. rewrite Rleb_true.
    unfold Rminus. tauto. }
  destruct idx as [|first rest] eqn:Ei.
  { apply Permutation_length in HPi. rewrite seq_length in HPi. destruct lams; easy. }
  destruct (slope_loop_spec tc rest [] first) as (pre & post & E1 & E2 & E3).
  { constructor; constructor. }
  cbn [app map] in E1, E2, E3.
  set (best := slope_loop tc first [nth first tc (NaN, NaN)] rest) in *.
  assert (Hsub : forall i, In i (pre ++ [best]) -> In i (first :: rest)).
  { intros i Hi. rewrite E1. apply in_app_iff in Hi as [Hi|[<-|[]]]; apply in_app_iff; auto. right; left; auto. }
  exists (map g (first :: rest)), (g best). split; [|split; [|split]].
  - rewrite HPi. unfold g. rewrite map_nth_seq. auto.
  - apply (StronglySorted_nth _ _ (g 0%nat)). intros j k Hjk. rewrite map_length in Hjk.
    rewrite !map_nth. rewrite <- Ei in *. unfold idx in *. rewrite rev_length in Hjk.
    rewrite !rev_nth by lia. specialize (Hs4 (length (argsort ws) - S k)%nat (length (argsort ws) - S j)%nat ltac:(lia)).
    assert (Hw : forall i, (i < length lams)%nat -> nth i ws NaN = Fin (c (g i))).
    { intros i Hi. unfold ws, g. apply (nth_map_in (fun lam => Fin (c lam))); auto. }
    rewrite !Hw in Hs4.
    + destruct Hs4 as [Hs4|Hs4]; [discriminate|]. simpl in Hs4. apply Rleb_true in Hs4. exact Hs4.
    + rewrite <- Hlen. apply Hs3. apply nth_In. lia.
    + rewrite <- Hlen. apply Hs3. apply nth_In. lia.
  - rewrite (np_get_nth _ _ (lam_num None)).
    + unfold g. f_equal. apply map_nth.
    + rewrite map_length. apply Hrange, Hsub. apply in_app_iff. right; left; auto.
  - exists (map g pre), (map g post). split; [|split].
    + rewrite E1, map_app. reflexivity.
    + clear E1 E3. replace (map g pre ++ [g best]) with (map g (pre ++ [best])) by (rewrite map_app; reflexivity). induction (pre ++ [best]) as [|a r IH]; [constructor|].
      inversion E2 as [|? ? HF HR]; subst. simpl. constructor.
      * apply Forall_forall. intros x Hx. apply in_map_iff in Hx as (i & <- & Hi).
        apply Hcomp; [apply Hsub; left; auto|apply Hsub; right; auto|].
        rewrite Forall_forall in HF. auto.
      * apply IH; auto. intros i Hi. apply Hsub. right; auto.
    + destruct post as [|nxt post]; simpl; auto. destruct E3 as (j & Hj & Ej).
      exists (g j). split.
      * replace (map g pre ++ [g best]) with (map g (pre ++ [best])) by (rewrite map_app; reflexivity). apply in_map; auto.
      * intros Hok. apply Hcomp in Hok; [congruence|apply Hsub; auto|].
        rewrite E1. apply in_app_iff. right; right; left; auto.
Qed.

(** ** A tuning object built from the user's candidates *)

Lemma sorted_candidates t (lams : list (option R)) : exists lams',
  nsort (order t) (map lam_num lams) = map lam_num lams' /\ Permutation lams' lams.
Proof.
  pose proof (nsort_perm (order t) (map lam_num lams)) as HP.
  apply Permutation_map_inv in HP as (l' & E & HP). exists l'. split; auto. apply Permutation_sym; auto.
Qed.

Lemma score_ok t lam l bound delta m : accepted l -> is_policy l -> regular (kind_modifier t) lam ->
  (bound = true -> 0 < delta <= 1) -> is_max (lg_n l) (weight l) m ->
  base_mse t (lam_num lam) (rewards l) (actions l) (pscores l) (policy l) (model_arg t l) (positions l) bound delta
  = Ok (Fin (spec_score (uses_model t) (kind_modifier t) bound delta m l lam)).
Proof.
  intros H Hp Hr Hd Hm. rewrite base_mse_arg. unfold spec_score. destruct bound.
  - rewrite (mse_bound_ok t lam l delta m) by auto. reflexivity.
  - rewrite mse_plain_ok by auto. rewrite Rplus_0_r. reflexivity.
Qed.

(** ** Optimistic shrinkage with lambda = 0 *)

Lemma nvar_NaN l : In NaN l -> nvar l = NaN.
Proof.
  intros H. unfold nvar. apply nmean_NaN. apply in_map_iff. exists NaN. split; auto.
Qed.

Definition zero_weight (l : blog) : Prop :=
  exists i, (i < lg_n l)%nat /\ lg_pi l i (lg_a l i) (lg_pos l i) = 0.

Lemma dros_zero_round l : accepted l -> zero_weight l ->
  exists rr, base_round T_DRos (Fin 0) (rewards l) (actions l) (pscores l) (policy l) (Some (model l)) (positions l)
    = Ok rr /\ In NaN rr /\ length rr = lg_n l.
Proof.
  intros H (k & Hk & Hz). eexists. cbn [base_round]. rewrite dros_round_num by auto. split; [reflexivity|].
  split; [|apply tab_length].
  apply In_tab. exists k. split; auto.
  replace (weight l k) with 0 by (unfold weight; rewrite Hz; lra).
  replace (os_weight (Fin 0) (Fin 0)) with NaN. rewrite nmul_NaN_l. reflexivity.
  unfold os_weight. simpl. rewrite !Rmult_0_l, Rplus_0_r, Reqb_refl. unfold inf_sign. rdec. reflexivity.
Qed.

Lemma dros_zero_mse l bound delta : accepted l -> zero_weight l -> (bound = true -> 0 < delta <= 1) ->
  base_mse T_DRos (Fin 0) (rewards l) (actions l) (pscores l) (policy l) (Some (model l)) (positions l) bound delta
  = Ok NaN.
Proof.
  intros H Hz Hd. destruct (dros_zero_round l H Hz) as (rr & E & Hin & _). cbn [base_round] in E.
  cbn [base_mse]. unfold dros_mse, dr_like_mse. rewrite weights_ok by auto. cbn [bind].
  rewrite ?q_factual_ok by auto. cbn [bind]. unfold mse_from. rewrite E. cbn [bind].
  rewrite nvar_NaN by auto. rewrite ndiv_NaN_l.
  assert (Hb : exists b, estimate_bias_in_ope (rewards l) (tabF (lg_n l) (weight l))
       (map (os_weight (Fin 0)) (tabF (lg_n l) (weight l))) (Some (tabF (lg_n l) (q_at l))) = Ok b).
  { unfold estimate_bias_in_ope, rewards, tabF. rewrite map_tab, !bcast2_tab. cbn [bind]. rewrite bcast2_tab. cbn [bind]. eauto. }
  destruct Hb as (b & Eb). destruct bound.
  - specialize (Hd eq_refl). unfold estimate_high_probability_upper_bound_bias.
    rewrite check_scalar_delta by lra. cbn [bind]. rewrite Eb. cbn [bind].
    rewrite (proj2 (Reqb_false delta 0)) by lra. cbn [raise_if bind].
    destruct (nmaxl_tabF (lg_n l) (weight l)) as (m & Em & _); [apply H|]. rewrite Em. cbn [bind]. reflexivity.
  - rewrite Eb. reflexivity.
Qed.

Lemma sorted_head_zero (lams : list (option R)) : In (Some 0) lams ->
  (forall lam, In lam lams -> lam_ge lam (Some 0)) ->
  exists r, nsort nle (map lam_num lams) = Fin 0 :: r.
Proof.
  intros Hin Hge. set (L := nsort nle (map lam_num lams)).
  assert (HS : StronglySorted (fun a b => nle a b = true) L).
  { unfold L. apply (nsort_sorted nle (fun x => x <> NaN)).
    - intros; apply nle_total; auto.
    - intros; eapply nle_trans; eauto.
    - apply Forall_forall. intros x Hx. apply in_map_iff in Hx as (y & <- & _). apply lam_num_not_nan. }
  assert (HI : forall h, In h L <-> In h (map lam_num lams)).
  { intros h. split; apply Permutation_in; [apply nsort_perm|apply Permutation_sym, nsort_perm]. }
  assert (H0 : In (Fin 0) L) by (apply HI; apply in_map_iff; exists (Some 0); auto).
  destruct L as [|x r]; [easy|]. exists r. f_equal.
  assert (Hx : In x (map lam_num lams)) by (apply HI; left; auto).
  apply in_map_iff in Hx as (lam & <- & Hl). specialize (Hge lam Hl). apply lam_ge_iff in Hge.
  destruct H0 as [H0|H0]; auto.
  inversion HS as [|? ? _ HF]; subst. rewrite Forall_forall in HF. specialize (HF _ H0).
  destruct lam as [y|]; simpl in *; [|discriminate]. apply Rleb_true in HF. apply Rleb_true in Hge. f_equal; lra.
Qed.

Lemma dros_zero_tune argsort ppf o l (lams : list (option R)) :
  tn_kind o = T_DRos -> tn_lambdas o = nsort nle (map lam_num lams) ->
  accepted l -> is_policy l -> zero_weight l ->
  In (Some 0) lams -> (forall lam, In lam lams -> lam_ge lam (Some 0)) ->
  0 < tn_delta o <= 1 ->
  (tn_method o = Slope -> (1 < lg_n l)%nat /\ (exists T, ppf (lg_n l - 1)%nat (1 - tn_delta o) = Fin T) /\
     forall xs, is_argsort xs (argsort xs)) ->
  tune argsort ppf o (rewards l) (actions l) (pscores l) (policy l) (Some (model l)) (positions l) = Ok (Fin 0).
Proof.
  intros Hk HL Hacc Hp Hz Hin Hge Hd Hsl.
  destruct (sorted_head_zero lams Hin Hge) as (r & ER).
  assert (HI : forall h, In h (tn_lambdas o) -> h = Fin 0 \/ exists lam, h = lam_num lam /\ regular Shrinkage lam).
  { intros h Hh. rewrite HL in Hh. apply (Permutation_in _ (nsort_perm _ _)) in Hh.
    apply in_map_iff in Hh as (lam & <- & Hl). specialize (Hge lam Hl).
    destruct lam as [x|]; simpl in *; [|right; exists None; auto].
    destruct (Req_dec x 0) as [->|Hx]; [left; auto|right; exists (Some x); simpl; split; auto; lra]. }
  unfold tune. destruct (tn_method o).
  - destruct (Hsl eq_refl) as (Hn & (T & HT) & Ha). clear Hsl. unfold tune_slope. rewrite Hk.
    set (F := fun h : num => rr <- base_round T_DRos h (rewards l) (actions l) (pscores l) (policy l) (Some (model l)) (positions l);;
        lb <- estimate_student_t_lower_bound ppf rr (tn_delta o);; Ok (nmean rr, nsub (nmean rr) lb)).
    assert (HF : forall h, In h (tn_lambdas o) -> (h = Fin 0 /\ F h = Ok (NaN, NaN)) \/ exists a b, F h = Ok (a, Fin b)).
    { intros h Hh. destruct (HI h Hh) as [->|(lam & -> & Hr)].
      - left. split; auto. unfold F. destruct (dros_zero_round l Hacc Hz) as (rr & E & Hi & _). rewrite E. cbn [bind].
        unfold estimate_student_t_lower_bound. rewrite check_scalar_delta by lra. cbn [bind].
        rewrite nmean_NaN by auto. reflexivity.
      - right. unfold F. rewrite (base_round_ok T_DRos) by auto. cbn [bind].
        unfold estimate_student_t_lower_bound. rewrite check_scalar_delta by lra. cbn [bind].
        set (f := contribution (uses_model T_DRos) (kind_modifier T_DRos) lam l).
        replace (length (tabF (lg_n l) f)) with (lg_n l) by (symmetry; apply tab_length).
        assert (Hn1 : 0 < INR (lg_n l) - 1) by (apply lt_1_INR in Hn; lra).
        rewrite HT, nvar_tabF, nmean_tabF by lia. rewrite ndiv_Fin by lra.
        rewrite nsqrt_Fin by (apply Rmult_le_pos; [apply variance_nonneg|left; apply Rinv_0_lt_compat; auto]).
        simpl. eauto. }
    assert (HM : forall L, (forall h, In h L -> In h (tn_lambdas o)) -> exists tc, mapM F L = Ok tc /\
       length tc = length L /\
       forall i, (i < length L)%nat -> (nth i L NaN = Fin 0 /\ nth i tc (NaN,NaN) = (NaN, NaN)) \/
          exists a b, nth i tc (NaN,NaN) = (a, Fin b)).
    { induction L as [|h L IH]; intros HLin.
      - exists []. simpl. split; auto. split; auto. intros; lia.
      - destruct IH as (tc & E1 & E2 & E3). { intros; apply HLin; right; auto. }
        cbn [mapM]. destruct (HF h (HLin h (or_introl eq_refl))) as [[-> E]|(a & b & E)]; rewrite E; cbn [bind]; rewrite E1; cbn [bind].
        + eexists. split; [reflexivity|]. simpl. split; [lia|]. intros [|i] Hi; [left; auto|apply E3; lia].
        + eexists. split; [reflexivity|]. simpl. split; [lia|]. intros [|i] Hi; [right; eauto|apply E3; lia]. }
    destruct (HM (tn_lambdas o)) as (tc & E1 & E2 & E3); auto. rewrite E1. cbn [bind].
    set (ws := map snd tc).
    assert (Elen : length ws = length (tn_lambdas o)) by (unfold ws; rewrite map_length; auto).
    assert (Hpos : (0 < length (tn_lambdas o))%nat) by (rewrite HL, ER; simpl; lia).
    assert (H00 : nth 0 ws NaN = NaN).
    { unfold ws. rewrite (nth_map_in snd tc 0 (NaN, NaN)) by lia.
      destruct (E3 0%nat Hpos) as [[_ ->]|(a & b & Eab)]; auto. exfalso.
      rewrite HL, ER in E1. cbn [mapM] in E1.
      destruct (HF (Fin 0)) as [[_ E]|(a' & b' & E)].
      - rewrite HL, ER. left; auto.
      - rewrite E in E1. cbn [bind] in E1. destruct (mapM F r); cbn [bind] in E1; [|discriminate].
        inversion E1; subst. simpl in Eab. congruence.
      - unfold F in E. destruct (dros_zero_round l Hacc Hz) as (rr & E' & Hi & _). rewrite E' in E. cbn [bind] in E.
        unfold estimate_student_t_lower_bound in E. rewrite check_scalar_delta in E by lra. cbn [bind] in E.
        rewrite nmean_NaN in E by auto. simpl in E. discriminate. }
    pose proof (Ha ws) as Hs. pose proof (is_argsort_perm _ _ Hs) as HPm. destruct Hs as (Hs1 & Hs2 & Hs3 & Hs4).
    destruct (rev (argsort ws)) as [|first rest] eqn:Er.
    { assert (length (rev (argsort ws)) = 0%nat) by (rewrite Er; auto). rewrite rev_length in H. lia. }
    assert (Efirst : first = nth (length ws - 1) (argsort ws) 0%nat).
    { replace first with (nth 0 (rev (argsort ws)) 0%nat) by (rewrite Er; auto).
      rewrite rev_nth by lia. f_equal. lia. }
    assert (Hfirst : In first (argsort ws)) by (rewrite Efirst; apply nth_In; lia).
    assert (HNF : nth first ws NaN = NaN).
    { assert (H0i : In 0%nat (argsort ws)).
      { apply (Permutation_in _ (Permutation_sym HPm)). apply in_seq. lia. }
      apply (In_nth _ _ 0%nat) in H0i as (j & Hj & Ej).
      destruct (Nat.eq_dec j (length ws - 1)) as [->|Hne].
      - rewrite Efirst, Ej. auto.
      - specialize (Hs4 j (length ws - 1)%nat ltac:(lia)). rewrite Ej, H00, <- Efirst in Hs4.
        destruct Hs4 as [Hs4|Hs4]; auto; discriminate. }
    assert (Hfl : (first < length (tn_lambdas o))%nat) by (rewrite <- Elen; auto).
    destruct (E3 first Hfl) as [[Ez Etc]|(a & b & Eab)].
    2:{ unfold ws in HNF. rewrite (nth_map_in snd tc first (NaN, NaN)) in HNF by lia. rewrite Eab in HNF. discriminate. }
    replace (slope_loop tc first [nth first tc (NaN, NaN)] rest) with first.
    { rewrite (np_get_nth _ _ NaN) by auto. rewrite Ez. reflexivity. }
    rewrite Etc. destruct rest as [|i rest]; simpl; auto. destruct (nth i tc (NaN, NaN)); reflexivity.
  - unfold tune_mse. rewrite Hk.
    set (f := fun h => match base_mse T_DRos h (rewards l) (actions l) (pscores l) (policy l) (Some (model l)) (positions l)
       (tn_bound o) (tn_delta o) with Ok s => s | Err _ => NaN end).
    destruct (nmaxl_tabF (lg_n l) (weight l)) as (m & _ & Hm); [apply Hacc|].
    destruct (dict_fold nle f (fun h => base_mse T_DRos h (rewards l) (actions l) (pscores l) (policy l) (Some (model l)) (positions l)
       (tn_bound o) (tn_delta o)) (tn_lambdas o)) as (ks & E1 & _ & _ & E4).
    + intros h Hh. unfold f. destruct (HI h Hh) as [->|(lam & -> & Hr)].
      * split; [discriminate|]. rewrite dros_zero_mse; auto.
      * split; [apply lam_num_not_nan|]. rewrite (score_ok T_DRos lam l _ _ m) by auto. reflexivity.
    + rewrite HL. apply (nsort_sorted nle (fun x => x <> NaN)).
      * intros; apply nle_total; auto.
      * intros; eapply nle_trans; eauto.
      * apply Forall_forall. intros x Hx. apply in_map_iff in Hx as (y & <- & _). apply lam_num_not_nan.
    + rewrite E1. cbn [bind]. rewrite HL, ER in E4. destruct ks as [|k ks]; [discriminate|].
      simpl in E4. inversion E4; subst k. simpl.
      replace (f (Fin 0)) with NaN by (unfold f; rewrite dros_zero_mse; auto).
      f_equal. clear. induction ks as [|k ks IH]; simpl; auto.
      destruct (f k); simpl; exact IH.
Qed.

(** ** Concentration bounds *)

Lemma ln_pos_le x y : 0 < x <= y -> ln x <= ln y.
Proof. intros [H1 [H2| ->]]; [left; apply ln_increasing; auto|lra]. Qed.

Lemma inv_mono c d d' : 0 < c -> 0 < d <= d' -> 0 < c / d' <= c / d.
Proof.
  intros Hc H. split; [apply Rdiv_lt_0_compat; lra|].
  apply Rmult_le_compat_l; [lra|]. apply Rinv_le_contravar; lra.
Qed.

Lemma ln_1_div_nonneg d : 0 < d <= 1 -> 0 <= ln (1 / d).
Proof.
  intros H. rewrite <- ln_1. apply ln_pos_le. split; [lra|].
  apply (Rmult_le_reg_r d); [lra|]. unfold Rdiv. rewrite Rmult_assoc, Rinv_l; lra.
Qed.

Definition hoeff n x xm d := avg n x - xm * sqrt (ln (1 / d) / (2 * INR n)).
Definition bern n x xm d := avg n x - 7 * xm * ln (2 / d) / (3 * (INR n - 1))
  - sqrt (2 * ln (2 / d) * variance n x / (INR n - 1)).

Lemma check_scalar_min m mx : m <= mx -> check_scalar (Fin mx) (Some (Fin m)) None = Ok tt.
Proof. intros. unfold check_scalar. simpl. rewrite (proj2 (Rltb_false mx m)) by lra. reflexivity. Qed.

Lemma hoeff_core n x xm d : (0 < n)%nat -> 0 < d <= 1 ->
  (check_scalar (Fin d) (Some (Fin 0)) (Some (Fin 1)) ;;;
  raise_if (Reqb d 0) ZeroDivisionError ;;;
  Ok (nsub (nmean (tabF n x)) (nmul (Fin xm) (nsqrt (ndiv (nlog (Fin (1 / d))) (nmul (Fin 2) (nnat (length (tabF n x)))))))))
  = Ok (Fin (hoeff n x xm d)).
Proof.
  intros Hn Hd. rewrite check_scalar_delta by lra. cbn [bind].
  rewrite (proj2 (Reqb_false d 0)) by lra. cbn [raise_if bind].
  replace (length (tabF n x)) with n by (symmetry; apply tab_length).
  rewrite nmean_tabF by auto. rewrite nlog_Fin by (apply Rdiv_lt_0_compat; lra).
  assert (0 < INR n) by (apply lt_0_INR; auto).
  unfold nnat. cbn [nmul]. rewrite ndiv_Fin by lra. rewrite nsqrt_Fin.
  - reflexivity.
  - apply Rmult_le_pos; [apply ln_1_div_nonneg; auto|left; apply Rinv_0_lt_compat; lra].
Qed.

Lemma hoeffding_ok n x xm d : (0 < n)%nat -> (forall i, (i < n)%nat -> x i <= xm) -> 0 < d <= 1 ->
  estimate_hoeffding_lower_bound (tabF n x) (Some xm) d = Ok (Fin (hoeff n x xm d)).
Proof.
  intros Hn Hx Hd. unfold estimate_hoeffding_lower_bound.
  destruct (nmaxl_tabF n x Hn) as (m & Em & (k & Hk & Ek) & _). rewrite Em. cbn [bind].
  rewrite check_scalar_min by (rewrite <- Ek; auto). cbn [bind]. apply hoeff_core; auto.
Qed.
Lemma hoeffding_none n x d m : (0 < n)%nat -> is_max n x m -> 0 < d <= 1 ->
  estimate_hoeffding_lower_bound (tabF n x) None d = Ok (Fin (hoeff n x m d)).
Proof.
  intros Hn Hx Hd. unfold estimate_hoeffding_lower_bound. rewrite (nmaxl_is n x m) by auto. cbn [bind].
  apply hoeff_core; auto.
Qed.

Lemma bern_core n x xm d : (1 < n)%nat -> 0 < d <= 1 ->
  (check_scalar (Fin d) (Some (Fin 0)) (Some (Fin 1)) ;;;
  raise_if (Reqb d 0) ZeroDivisionError ;;;
  Ok (nsub (nsub (nmean (tabF n x))
     (ndiv (nmul (nmul (Fin 7) (Fin xm)) (nlog (Fin (2 / d)))) (nmul (Fin 3) (Fin (INR (length (tabF n x)) - 1)))))
     (nsqrt (ndiv (nmul (nmul (Fin 2) (nlog (Fin (2 / d)))) (nvar (tabF n x))) (Fin (INR (length (tabF n x)) - 1))))))
  = Ok (Fin (bern n x xm d)).
Proof.
  intros Hn Hd. rewrite check_scalar_delta by lra. cbn [bind].
  rewrite (proj2 (Reqb_false d 0)) by lra. cbn [raise_if bind].
  replace (length (tabF n x)) with n by (symmetry; apply tab_length).
  rewrite nmean_tabF, nvar_tabF by lia. rewrite nlog_Fin by (apply Rdiv_lt_0_compat; lra).
  assert (Hn1 : 0 < INR n - 1) by (apply lt_1_INR in Hn; lra).
  cbn [nmul]. rewrite !ndiv_Fin by lra. rewrite nsqrt_Fin.
  - reflexivity.
  - apply Rmult_le_pos; [|left; apply Rinv_0_lt_compat; lra].
    pose proof (log_delta_pos d Hd). apply Rmult_le_pos; [lra|apply variance_nonneg].
Qed.
Lemma bernstein_ok n x xm d : (1 < n)%nat -> (forall i, (i < n)%nat -> x i <= xm) -> 0 < d <= 1 ->
  estimate_bernstein_lower_bound (tabF n x) (Some xm) d = Ok (Fin (bern n x xm d)).
Proof.
  intros Hn Hx Hd. unfold estimate_bernstein_lower_bound.
  destruct (nmaxl_tabF n x ltac:(lia)) as (m & Em & (k & Hk & Ek) & _). rewrite Em. cbn [bind].
  rewrite check_scalar_min by (rewrite <- Ek; auto). cbn [bind]. apply bern_core; auto.
Qed.
Lemma bernstein_none n x d m : (1 < n)%nat -> is_max n x m -> 0 < d <= 1 ->
  estimate_bernstein_lower_bound (tabF n x) None d = Ok (Fin (bern n x m d)).
Proof.
  intros Hn Hx Hd. unfold estimate_bernstein_lower_bound. rewrite (nmaxl_is n x m) by (auto; lia). cbn [bind].
  apply bern_core; auto.
Qed.

Lemma hoeff_below n x xm d : 0 <= xm -> hoeff n x xm d <= avg n x.
Proof. intros. unfold hoeff. pose proof (sqrt_pos (ln (1 / d) / (2 * INR n))). nra. Qed.
Lemma hoeff_mono n x xm d d' : (0 < n)%nat -> 0 <= xm -> 0 < d <= d' -> hoeff n x xm d <= hoeff n x xm d'.
Proof.
  intros Hn Hx Hd. unfold hoeff.
  assert (sqrt (ln (1 / d') / (2 * INR n)) <= sqrt (ln (1 / d) / (2 * INR n))).
  { apply sqrt_le_1_alt. apply Rmult_le_compat_r.
    - left. apply Rinv_0_lt_compat. apply lt_0_INR in Hn. lra.
    - apply ln_pos_le. apply inv_mono; lra. }
  nra.
Qed.
Lemma bern_below n x xm d : (1 < n)%nat -> 0 <= xm -> 0 < d <= 1 -> bern n x xm d <= avg n x.
Proof.
  intros Hn Hx Hd. unfold bern. pose proof (sqrt_pos (2 * ln (2 / d) * variance n x / (INR n - 1))).
  pose proof (log_delta_pos d Hd).
  assert (0 <= 7 * xm * ln (2 / d) / (3 * (INR n - 1))).
  { apply lt_1_INR in Hn. apply Rmult_le_pos; [apply Rmult_le_pos; lra|left; apply Rinv_0_lt_compat; lra]. }
  lra.
Qed.
Lemma bern_mono n x xm d d' : (1 < n)%nat -> 0 <= xm -> 0 < d <= d' -> bern n x xm d <= bern n x xm d'.
Proof.
  intros Hn Hx Hd. unfold bern. apply lt_1_INR in Hn.
  assert (Hl : ln (2 / d') <= ln (2 / d)) by (apply ln_pos_le; apply inv_mono; lra).
  assert (sqrt (2 * ln (2 / d') * variance n x / (INR n - 1)) <= sqrt (2 * ln (2 / d) * variance n x / (INR n - 1))).
  { apply sqrt_le_1_alt. apply Rmult_le_compat_r; [left; apply Rinv_0_lt_compat; lra|].
    apply Rmult_le_compat_r; [apply variance_nonneg|lra]. }
  assert (7 * xm * ln (2 / d') / (3 * (INR n - 1)) <= 7 * xm * ln (2 / d) / (3 * (INR n - 1))).
  { apply Rmult_le_compat_r; [left; apply Rinv_0_lt_compat; lra|]. apply Rmult_le_compat_l; lra. }
  lra.
Qed.

(** ** Selection in general *)

Lemma tune_candidate argsort ppf t lams m bound delta ue o l :
  make_tuner t (map lam_num lams) m bound delta ue = Ok o ->
  (forall lam, In lam lams -> regular (kind_modifier t) lam) ->
  accepted l -> is_policy l -> tunable argsort ppf m bound delta l ->
  exists lam, In lam lams /\
    tune argsort ppf o (rewards l) (actions l) (pscores l) (policy l) (model_arg t l) (positions l) = Ok (lam_num lam).
Proof.
  intros Ho Hr Hacc Hp Ht. apply make_tuner_inv in Ho as (-> & Hne & Hd).
  assert (Hne' : lams <> []) by (intros ->; easy).
  unfold tune. cbn [tn_method]. destruct m; cbn [tunable] in Ht.
  - destruct Ht as (Hn & (T & HT) & Ha). destruct (sorted_candidates t lams) as (lams' & E & HP).
    destruct (tune_slope_ok argsort ppf (mkTuner t (nsort (order t) (map lam_num lams)) Slope bound delta ue None)
      l lams' T (fun lam => spec_value (uses_model t) (kind_modifier t) lam l)
      (spec_width (uses_model t) (kind_modifier t) T l)) as (visit & lam & Hv & _ & E' & Hc); auto.
    + intros ->. apply Hne'. apply Permutation_nil; auto.
    + intros lam Hl. cbn [tn_kind]. rewrite base_round_arg, base_round_ok; eauto.
      * apply Hr. apply (Permutation_in _ HP); auto.
    + exists lam. split; [|exact E'].
      apply (Permutation_in _ HP). apply (Permutation_in _ Hv).
      destruct Hc as (pre & post & -> & _). apply in_app_iff. right; left; auto.
  - destruct (nmaxl_tabF (lg_n l) (weight l)) as (w & _ & Hw); [apply Hacc|].
    destruct (tune_mse_ok (mkTuner t (nsort (order t) (map lam_num lams)) Mse bound delta ue None) l lams
       (spec_score (uses_model t) (kind_modifier t) bound delta w l)) as (lam & Hl & E & _); auto.
    + intros lam Hl. cbn [tn_kind tn_bound tn_delta]. apply score_ok; auto. intros Hb. specialize (Ht Hb). lra.
    + exists lam. split; auto.
Qed.

Lemma run_remembered argsort ppf calls : forall o lam,
  tn_best o = Some (lam_num lam) -> regular (kind_modifier (tn_kind o)) lam ->
  supports (tn_kind o) (tn_use_est o) ->
  Forall (good_call (tn_use_est o)) calls ->
  tuner_run argsort ppf o (map call_input calls)
  = map (fun c => Ok (Fin (spec_value (uses_model (tn_kind o)) (kind_modifier (tn_kind o)) lam (c_log c)))) calls.
Proof.
  induction calls as [|c calls IH]; intros o lam Hb Hr Hs HF; [reflexivity|].
  inversion HF as [|? ? (H1 & H2 & H3 & H4) HF']; subst. cbn [map tuner_run]. unfold call_input at 1.
  rewrite (remembered_value _ _ o _ _ _ _ lam) by auto. f_equal. apply IH; auto.
Qed.

(** A valid argsort exists (so hypotheses about np.argsort can be met). *)
Definition nleb (x y : num) : bool := match y with NaN => true | _ => nle x y end.
Fixpoint iinsert (xs : list num) (i : nat) (l : list nat) : list nat :=
  match l with
  | [] => [i]
  | j :: r => if nleb (nth i xs NaN) (nth j xs NaN) then i :: j :: r else j :: iinsert xs i r
  end.
Definition isort (xs : list num) : list nat := fold_right (iinsert xs) [] (seq 0 (length xs)).

Lemma iinsert_perm xs i l : Permutation (iinsert xs i l) (i :: l).
Proof.
  induction l as [|j l IH]; simpl; auto. destruct (nleb _ _); auto. rewrite IH. apply perm_swap.
Qed.
Lemma nleb_total x y : nleb x y = true \/ nleb y x = true.
Proof. destruct x as [a| | |], y as [b| | |]; simpl; auto. rewrite !Rleb_true. lra. Qed.
Lemma nleb_trans x y z : nleb x y = true -> nleb y z = true -> nleb x z = true.
Proof.
  destruct x as [a| | |], y as [b| | |], z as [c| | |]; simpl; auto; try discriminate. rewrite !Rleb_true. lra.
Qed.
Lemma iinsert_sorted xs i l :
  StronglySorted (fun a b => nleb (nth a xs NaN) (nth b xs NaN) = true) l ->
  StronglySorted (fun a b => nleb (nth a xs NaN) (nth b xs NaN) = true) (iinsert xs i l).
Proof.
  intros HS. induction l as [|y l IH]; simpl.
  - constructor; constructor.
  - inversion HS as [|? ? HSl HF]; subst. destruct (nleb (nth i xs NaN) (nth y xs NaN)) eqn:E.
    + constructor; auto. constructor; auto. rewrite Forall_forall in *. intros z Hz. eapply nleb_trans; eauto.
    + constructor; auto. rewrite Forall_forall in *. intros z Hz.
      apply (Permutation_in _ (iinsert_perm xs i l)) in Hz. destruct Hz as [<-|Hz]; auto.
      destruct (nleb_total (nth i xs NaN) (nth y xs NaN)); auto; congruence.
Qed.

Lemma isort_ok xs : is_argsort xs (isort xs).
Proof.
  assert (HP : Permutation (isort xs) (seq 0 (length xs))).
  { unfold isort. induction (seq 0 (length xs)) as [|i l IH]; simpl; auto. rewrite iinsert_perm. auto. }
  assert (HS : StronglySorted (fun a b => nleb (nth a xs NaN) (nth b xs NaN) = true) (isort xs)).
  { clear HP. unfold isort. induction (seq 0 (length xs)); simpl; [constructor|]. apply iinsert_sorted; auto. }
  split; [|split; [|split]].
  - apply (Permutation_NoDup (Permutation_sym HP)). apply seq_NoDup.
  - rewrite (Permutation_length HP). apply seq_length.
  - intros i Hi. apply (Permutation_in _ HP), in_seq in Hi. lia.
  - intros j k Hjk. unfold before_ok.
    assert (G : nleb (nth (nth j (isort xs) 0%nat) xs NaN) (nth (nth k (isort xs) 0%nat) xs NaN) = true).
    { clear HP. revert j k Hjk. induction (isort xs) as [|a l IH]; intros j k Hjk; [simpl in Hjk; lia|].
      inversion HS as [|? ? HSl HF]; subst. destruct k as [|k]; [lia|]. destruct j as [|j]; simpl in *.
      - rewrite Forall_forall in HF. apply HF. apply nth_In. lia.
      - apply IH; auto. lia. }
    unfold nleb in G. destruct (nth (nth k (isort xs) 0%nat) xs NaN); auto.
Qed.
