(** * P_Init: which Python arguments the constructors accept (C122-C124). *)

From Coq Require Import String Reals List ZArith Bool Lia Lra Permutation Sorted.
From Verif Require Import Num NpList M_Utils M_Tuning M_Init S_Init L_Num L_Tuning L_Init.
Import ListNotations.
Open Scope R_scope.

Lemma nan_iff x : negb (neqb x x) = false <-> x <> NaN.
Proof.
  rewrite negb_false_iff. destruct x as [r| | |]; simpl; split; try congruence; try discriminate.
  intros _. unfold Reqb. destruct (Req_EM_T r r); congruence.
Qed.

Lemma check_scalar_err x mn mx : check_scalar x mn mx = Ok tt \/ check_scalar x mn mx = Err ValueError.
Proof.
  unfold check_scalar. destruct mn as [a|], mx as [b|]; simpl; auto;
    unfold raise_if; repeat match goal with |- context [if ?b then _ else _] => destruct b; simpl; auto end.
Qed.

(** ** C122: estimators *)

(** The values of [lambda_] within the range of an estimator: NaN is not one. *)
Definition lambda_range (subgauss : bool) (x : num) : Prop := if subgauss then between 0 1 x else at_least 0 x.

Lemma lambda_range_iff (subgauss : bool) x :
  check_scalar x (Some (Fin 0)) (if subgauss then Some (Fin 1) else None) = Ok tt /\ negb (neqb x x) = false <-> lambda_range subgauss x.
Proof.
  rewrite nan_iff. destruct subgauss; simpl; rewrite ?check_min_iff, ?check_minmax_iff; unfold or_nan; split.
  - intros [[H|H] Hn]; [contradiction|auto].
  - intros (r & -> & H). split; [right; exists r; auto|discriminate].
  - intros [[H|H] Hn]; [contradiction|auto].
  - intros H. split; auto. destruct H as [->|(r & -> & H)]; discriminate.
Qed.

(** An importance-weighting estimator is built exactly when [lambda_] is an int or float in range and
    [use_estimated_pscore] is a bool; otherwise the error tells which: a TypeError for a [lambda_] that is not a number,
    a ValueError for one out of range (NaN included), a TypeError for a flag that is not a bool. *)
Theorem C122_estimators : forall (subgauss : bool) lam use_est,
  let build := est_init (if subgauss then Some (Fin 1) else None) lam use_est in
  (forall x, build = Ok x <-> number lam x /\ lambda_range subgauss x /\ flag use_est) /\
  ((~ exists x, number lam x) -> build = Err TypeError) /\
  (forall x, number lam x -> ~ lambda_range subgauss x -> build = Err ValueError) /\
  (forall x, number lam x -> lambda_range subgauss x -> ~ flag use_est -> build = Err TypeError).
Proof.
  intros sg lam ue build. unfold build, est_init, check_scalar_v.
  assert (Hnot : (~ exists x, number lam x) -> is_number lam = false).
  { intros H. destruct (is_number lam) eqn:E; auto. exfalso. apply H, is_number_iff, E. }
  assert (Hyes : forall x, number lam x -> is_number lam = true /\ num_of lam = x).
  { intros x Hx. split; [apply is_number_iff; eauto|apply number_num; auto]. }
  split; [|split; [|split]].
  - intros x. rewrite !seq_ok, !raise_ok, negb_false_iff, is_number_iff, is_bool_iff. split.
    + intros ([(y & Hy) H1] & H2 & H3 & E). injection E as <-. destruct (Hyes y Hy) as [_ Ey]. rewrite Ey in *.
      split; auto. split; auto. apply lambda_range_iff. auto.
    + intros (Hx & H & Hf). destruct (Hyes x Hx) as [_ Ex]. rewrite Ex. apply lambda_range_iff in H as [H1 H2]. repeat split; eauto.
  - intros H. rewrite (Hnot H). reflexivity.
  - intros x Hx Hr. destruct (Hyes x Hx) as [E1 E2]. rewrite E1, E2. simpl.
    destruct (check_scalar_err x (Some (Fin 0)) (if sg then Some (Fin 1) else None)) as [E|E]; rewrite E; simpl; auto.
    destruct (negb (neqb x x)) eqn:En; simpl; auto. exfalso. apply Hr, lambda_range_iff. auto.
  - intros x Hx Hr Hf. destruct (Hyes x Hx) as [E1 E2]. rewrite E1, E2. simpl. apply lambda_range_iff in Hr as [H1 H2]. rewrite H1, H2. simpl.
    destruct (negb (is_bool ue)) eqn:Eb; auto. exfalso. apply Hf, is_bool_iff, Eb.
Qed.

(** The balanced estimator has no flag; the kernel estimators accept every non-negative bandwidth: also 0, which they
    divide by, infinity and NaN. *)
Theorem C122_bipw : forall lam x, bipw_init lam = Ok x <-> number lam x /\ at_least 0 x.
Proof.
  intros lam x. unfold bipw_init, check_scalar_v. rewrite !seq_ok, !raise_ok, negb_false_iff, is_number_iff. split.
  - intros ([(y & Hy) H1] & H2 & E). injection E as <-. rewrite (number_num _ _ Hy) in *. split; auto.
    apply (lambda_range_iff false). auto.
  - intros (Hx & H). rewrite (number_num _ _ Hx). apply (lambda_range_iff false) in H as [H1 H2]. repeat split; eauto.
Qed.
Theorem C122_kernel : forall kernel bandwidth x, kernel_init kernel bandwidth = Ok x <->
  one_of ["gaussian"; "epanechnikov"; "triangular"; "cosine"]%string kernel /\ number bandwidth x /\ or_nan (at_least 0) x.
Proof.
  intros k b x. unfold kernel_init. rewrite !seq_ok, raise_ok, in_strs_iff, number_min. split.
  - intros (Hk & (y & Hy & H) & E). injection E as <-. rewrite (number_num _ _ Hy). auto.
  - intros (Hk & Hx & H). split; auto. split; [eauto|]. rewrite (number_num _ _ Hx). auto.
Qed.

(** The errors of the two: a value that is no number (for the kernel estimators: in second place, after a ValueError for an unknown kernel)
    is a TypeError, a number out of range a ValueError. *)
Theorem C122_bipw_kernel_errors :
  (forall lam, (~ exists x, number lam x) -> bipw_init lam = Err TypeError) /\
  (forall lam x, number lam x -> ~ at_least 0 x -> bipw_init lam = Err ValueError) /\
  (forall kernel bandwidth, ~ one_of ["gaussian"; "epanechnikov"; "triangular"; "cosine"]%string kernel -> kernel_init kernel bandwidth = Err ValueError) /\
  (forall kernel bandwidth, one_of ["gaussian"; "epanechnikov"; "triangular"; "cosine"]%string kernel ->
     (~ exists x, number bandwidth x) -> kernel_init kernel bandwidth = Err TypeError) /\
  (forall kernel bandwidth x, one_of ["gaussian"; "epanechnikov"; "triangular"; "cosine"]%string kernel ->
     number bandwidth x -> ~ or_nan (at_least 0) x -> kernel_init kernel bandwidth = Err ValueError).
Proof.
  assert (Hnot : forall lam, (~ exists x, number lam x) -> is_number lam = false).
  { intros lam H. destruct (is_number lam) eqn:E; auto. exfalso. apply H, is_number_iff, E. }
  assert (Hyes : forall lam x, number lam x -> is_number lam = true /\ num_of lam = x).
  { intros lam x Hx. split; [apply is_number_iff; eauto|apply number_num; auto]. }
  split; [|split; [|split; [|split]]].
  - intros lam H. unfold bipw_init, check_scalar_v. rewrite (Hnot lam H). reflexivity.
  - intros lam x Hx Hr. destruct (Hyes lam x Hx) as [E1 E2]. unfold bipw_init, check_scalar_v. rewrite E1, E2. simpl.
    destruct (check_scalar_err x (Some (Fin 0)) None) as [E|E]; simpl in E; rewrite E; simpl; auto.
    destruct (negb (neqb x x)) eqn:En; simpl; auto. exfalso. apply Hr. apply (lambda_range_iff false). auto.
  - intros k b H. unfold kernel_init. destruct (negb (in_strs _ k)) eqn:E; [reflexivity|]. exfalso. apply H. apply in_strs_iff. exact E.
  - intros k b Hk H. apply in_strs_iff in Hk. unfold kernel_init, check_scalar_v. rewrite Hk. simpl. rewrite (Hnot b H). reflexivity.
  - intros k b x Hk Hx Hr. destruct (Hyes b x Hx) as [E1 E2]. apply in_strs_iff in Hk. unfold kernel_init, check_scalar_v. rewrite Hk, E1, E2. simpl.
    destruct (check_scalar_err x (Some (Fin 0)) None) as [E|E]; simpl in E; rewrite E; simpl; auto. exfalso. apply Hr. apply check_min_iff. exact E.
Qed.
(** Cases: None, -1 and nan; a bandwidth that is a string, a negative one, an unknown kernel. *)
Example C122_bipw_kernel_cases :
  (~ exists x, number VNone x) /\ number (VInt (-1)) (Fin (-1)) /\ ~ at_least 0 (Fin (-1)) /\ ~ at_least 0 NaN /\
  ~ one_of ["gaussian"; "epanechnikov"; "triangular"; "cosine"]%string (VStr "uniform") /\ ~ or_nan (at_least 0) (Fin (-1)).
Proof.
  assert (H1 : ~ at_least 0 (Fin (-1))). { intros [E|(r & E & H)]; [discriminate|]. injection E as <-. lra. }
  assert (H2 : number (VInt (-1)) (Fin (-1))).
  { assert (B : is_number (VInt (-1)) = true) by reflexivity. apply is_number_iff in B as (x & Hx). pose proof (number_num _ _ Hx) as E. simpl in E. rewrite E. exact Hx. }
  split; [|split; [exact H2|split; [exact H1|split; [|split]]]].
  - intros H. apply is_number_iff in H. discriminate.
  - intros [E|(r & E & _)]; discriminate.
  - intros H. apply in_strs_iff in H. discriminate.
  - intros [E|H]; [discriminate|auto].
Qed.

Example C122_cases :
  est_init None (VBool true) (VBool false) = Ok (Fin 1) /\ est_init None (VNpInt 3) (VBool false) = Err TypeError /\
  est_init None (VFloat PInf) (VBool true) = Ok PInf /\ est_init (Some (Fin 1)) (VFloat PInf) (VBool true) = Err ValueError /\
  est_init None (VFloat NaN) (VBool true) = Err ValueError /\ est_init None (VInt 3) (VInt 1) = Err TypeError /\
  kernel_init (VStr "gaussian") (VInt 0) = Ok (Fin 0) /\ kernel_init (VStr "cosine") (VFloat NaN) = Ok NaN.
Proof.
  assert (H1 : est_init None (VBool true) (VBool false) = Ok (Fin 1)).
  { apply (C122_estimators false). split; [apply (number_int _ 1); constructor|]. split; [right; exists 1; split; auto; lra|exists false; auto]. }
  assert (H2 : est_init None (VNpInt 3) (VBool false) = Err TypeError) by reflexivity.
  assert (H3 : est_init None (VFloat PInf) (VBool true) = Ok PInf).
  { apply (C122_estimators false). split; [constructor|]. split; [left; auto|exists true; auto]. }
  assert (H4 : est_init (Some (Fin 1)) (VFloat PInf) (VBool true) = Err ValueError).
  { apply (C122_estimators true (VFloat PInf) (VBool true)) with (x := PInf); [constructor|]. intros (r & E & _). discriminate. }
  assert (H5 : est_init None (VFloat NaN) (VBool true) = Err ValueError).
  { apply (C122_estimators false (VFloat NaN) (VBool true)) with (x := NaN); [constructor|]. intros [E|(r & E & _)]; discriminate. }
  assert (H6 : est_init None (VInt 3) (VInt 1) = Err TypeError).
  { apply (C122_estimators false (VInt 3) (VInt 1)) with (x := Fin 3); [apply number_int; constructor| |intros (b & E); discriminate].
    right. exists 3. split; auto. lra. }
  assert (H7 : kernel_init (VStr "gaussian") (VInt 0) = Ok (Fin 0)).
  { apply C122_kernel. split; [exists "gaussian"%string; simpl; auto|]. split; [apply number_int; constructor|]. right. right. exists 0. split; auto. lra. }
  assert (H8 : kernel_init (VStr "cosine") (VFloat NaN) = Ok NaN).
  { apply C122_kernel. split; [exists "cosine"%string; simpl; auto 6|]. split; [constructor|left; auto]. }
  auto 10.
Qed.

(** ** C123: tuned estimators *)

(** The order in which the candidates are tried: from the least to the most biased. *)
Definition tried_in_order (t : tuned) (a b : num) : Prop :=
  match t with T_IPW | T_DR | T_Switch => nle b a = true | T_DRos | T_SGIPW | T_SGDR => nle a b = true end.

Lemma lambdas_iff (mx : bool) l xs : check_lambdas_v (if mx then Fin 1 else PInf) l = Ok xs <->
  exists vs, l = VList vs /\ vs <> [] /\ Forall2 (fun v x => number v x /\ lambda_range mx x) vs xs.
Proof.
  assert (Hone : forall v x, (check_scalar_v v is_number (Some (Fin 0)) (Some (if mx then Fin 1 else PInf)) ;;;
     raise_if (negb (neqb (num_of v) (num_of v))) ValueError ;;; Ok (num_of v)) = Ok x <-> number v x /\ lambda_range mx x).
  { intros v x. rewrite !seq_ok, raise_ok, check_v_iff, is_number_iff.
    assert (Hcap : forall y, check_scalar y (Some (Fin 0)) (Some (if mx then Fin 1 else PInf)) = Ok tt /\ negb (neqb y y) = false <-> lambda_range mx y).
    { intros y. rewrite <- lambda_range_iff. destruct mx; [reflexivity|]. destruct y as [r| | |]; unfold check_scalar; simpl; tauto. }
    split.
    - intros ([(y & Hy) H1] & H2 & E). injection E as <-. rewrite (number_num _ _ Hy) in *. split; auto. apply Hcap. auto.
    - intros (Hx & H). rewrite (number_num _ _ Hx). apply Hcap in H as [H1 H2]. repeat split; eauto. }
  assert (Hm : forall vs xs, mapM (fun v => check_scalar_v v is_number (Some (Fin 0)) (Some (if mx then Fin 1 else PInf)) ;;;
     raise_if (negb (neqb (num_of v) (num_of v))) ValueError ;;; Ok (num_of v)) vs = Ok xs <->
     Forall2 (fun v x => number v x /\ lambda_range mx x) vs xs).
  { induction vs as [|v vs IH]; intros ys; cbn [mapM].
    - split; [intros E; injection E as <-; constructor|]. intros H; inversion H; reflexivity.
    - rewrite bind_ok. split.
      + intros (x & Hx & H). apply bind_ok in H as (ys' & Hys & E). injection E as <-. constructor; [apply Hone; auto|apply IH; auto].
      + intros H. inversion H as [|? x ? ys' Hx Hys]; subst. exists x. split; [apply Hone; auto|]. apply bind_ok. exists ys'. split; [apply IH; auto|reflexivity]. }
  unfold check_lambdas_v. destruct l; try (split; [discriminate|intros (vs & E & _); discriminate]).
  destruct l as [|v l].
  - split; [discriminate|]. intros (vs & E & Hn & _). injection E as <-. congruence.
  - rewrite Hm. split.
    + intros H. exists (v :: l). repeat split; auto. discriminate.
    + intros (vs & E & _ & H). injection E as <-. auto.
Qed.

Lemma init_inputs_iff m b d u : check_init_inputs_v m b d u = Ok tt <->
  one_of ["slope"; "mse"]%string m /\ flag b /\ float_in (or_nan (between 0 1)) d /\ flag u.
Proof. unfold check_init_inputs_v. rewrite !seq_ok, !raise_ok, in_strs_iff, !is_bool_iff, float_minmax. tauto. Qed.

Lemma Forall2_right {A B} (P : A -> B -> Prop) (Q : B -> Prop) l m : Forall2 P l m -> (forall a b, P a b -> Q b) -> Forall Q m.
Proof. intros H HQ. induction H; constructor; eauto. Qed.

Lemma Forall2_fun {A B} (P : A -> B -> Prop) l m m' : (forall a b b', P a b -> P a b' -> b = b') -> Forall2 P l m -> Forall2 P l m' -> m = m'.
Proof.
  intros HP H. revert m'. induction H; intros m' H'; inversion H'; subst; auto. f_equal; [eapply HP; eauto|auto].
Qed.

(** A tuned estimator is built exactly from a non-empty list of numbers in range, 'slope' or 'mse', two bools and a
    float [delta] in [0, 1] (or NaN); its candidates are the given ones, ordered from the least to the most biased. *)
Theorem C123_tuned : forall t lambdas method bound delta use_est xs,
  tuning_init t lambdas method bound delta use_est = Ok xs <->
  (exists vs ys, lambdas = VList vs /\ vs <> [] /\
     Forall2 (fun v x => number v x /\ lambda_range (match t with T_SGIPW | T_SGDR => true | _ => false end) x) vs ys /\
     Permutation xs ys /\ StronglySorted (tried_in_order t) xs) /\
  one_of ["slope"; "mse"]%string method /\ flag bound /\ float_in (or_nan (between 0 1)) delta /\ flag use_est.
Proof.
  intros t ls m b d u xs. unfold tuning_init.
  replace (match t with T_SGIPW | T_SGDR => Fin 1 | _ => PInf end)
    with (if (match t with T_SGIPW | T_SGDR => true | _ => false end) then Fin 1 else PInf) by (destruct t; reflexivity).
  set (mx := match t with T_SGIPW | T_SGDR => true | _ => false end).
  assert (Hsort : forall ys, Forall (fun x => x <> NaN) ys -> StronglySorted (tried_in_order t) (sort_lambdas t ys) /\ Permutation (sort_lambdas t ys) ys).
  { intros ys Hy. replace (sort_lambdas t ys) with (nsort (order t) ys) by (destruct t; reflexivity).
    split; [|apply nsort_perm]. assert (E := order_sorted t ys Hy). revert E. unfold tried_in_order. destruct t; auto. }
  assert (Hnan : forall vs ys, Forall2 (fun v x => number v x /\ lambda_range mx x) vs ys -> Forall (fun x => x <> NaN) ys).
  { intros vs ys H. apply (Forall2_right _ _ _ _ H). intros v x [_ Hx] ->. destruct mx; simpl in Hx; [destruct Hx as (r & E & _)|destruct Hx as [E|(r & E & _)]]; discriminate. }
  rewrite bind_ok. split.
  - intros (ys & Hys & H). apply lambdas_iff in Hys as (vs & -> & Hne & HF). rewrite seq_ok, init_inputs_iff in H. destruct H as [H E]. injection E as <-.
    split; auto. exists vs, ys. destruct (Hsort ys (Hnan _ _ HF)). repeat split; auto.
  - intros [(vs & ys & -> & Hne & HF & HP & HS) H]. exists ys. split; [apply lambdas_iff; eauto|]. rewrite seq_ok, init_inputs_iff. split; auto.
    f_equal. destruct (Hsort ys (Hnan _ _ HF)) as [HS' HP'].
    assert (Hanti : forall a c, tried_in_order t a c -> tried_in_order t c a -> a = c).
    { intros a c. unfold tried_in_order. destruct t; destruct a as [r| | |], c as [s| | |]; simpl; try discriminate; auto;
        intros H1 H2; apply Rleb_true in H1; apply Rleb_true in H2; f_equal; lra. }
    clear - HP HP' HS HS' Hanti. assert (HP2 : Permutation (sort_lambdas t ys) xs) by (rewrite HP'; symmetry; auto). clear HP HP'.
    revert HS' HP2. generalize (sort_lambdas t ys) as zs. clear ys. induction HS as [|x xs HS IH HA]; intros zs HZ HP.
    + apply Permutation_nil. symmetry. auto.
    + destruct zs as [|z zs]; [apply Permutation_nil in HP; discriminate|]. inversion HZ as [|? ? HZ' HB]; subst.
      assert (z = x).
      { assert (Hz : In z (x :: xs)) by (apply (Permutation_in _ HP); simpl; auto).
        assert (Hx : In x (z :: zs)) by (apply (Permutation_in _ (Permutation_sym HP)); simpl; auto).
        rewrite Forall_forall in HA, HB. destruct Hz as [->|Hz]; auto. destruct Hx as [->|Hx]; auto. }
      subst z. f_equal. apply IH; auto. apply (Permutation_cons_inv HP).
Qed.

Example C123_cases :
  tuning_init T_IPW (VList [VInt 3; VFloat PInf; VInt 7]) (VStr "slope") (VBool true) (VFloat (Fin (1/20))) (VBool false) = Ok [PInf; Fin 7; Fin 3] /\
  tuning_init T_SGIPW (VList [VInt 3]) (VStr "mse") (VBool true) (VFloat (Fin (1/20))) (VBool false) = Err ValueError /\
  tuning_init T_DR (VList [VInt 3]) (VStr "mse") (VBool true) (VInt 1) (VBool false) = Err TypeError /\
  tuning_init T_DR (VList [VInt 3]) (VStr "mse") (VBool true) (VFloat NaN) (VBool false) = Ok [Fin 3] /\
  tuning_init T_DR (VTuple [VInt 3]) (VStr "mse") (VBool true) (VFloat (Fin 1)) (VBool false) = Err TypeError /\
  tuning_init T_DR (VList []) (VStr "mse") (VBool true) (VFloat (Fin 1)) (VBool false) = Err ValueError.
Proof.
  assert (N : forall z, number (VInt z) (Fin (IZR z))) by (intros; apply number_int; constructor).
  split; [|split; [|split; [|split; [|split]]]]; try reflexivity.
  - apply C123_tuned. split.
    + exists [VInt 3; VFloat PInf; VInt 7], [Fin 3; PInf; Fin 7]. split; auto. split; [discriminate|]. split.
      * constructor; [split; [apply N|right; exists 3; split; auto; lra]|]. constructor; [split; [apply number_float|left; reflexivity]|].
        constructor; [split; [apply N|right; exists 7; split; auto; lra]|constructor].
      * split; [apply Permutation_sym; apply (Permutation_cons_app [PInf; Fin 7] []); apply Permutation_refl|].
        repeat constructor; unfold tried_in_order; simpl; auto; apply Rleb_true; lra.
    + split; [exists "slope"%string; simpl; auto|]. split; [exists true; auto|]. split; [|exists false; auto].
      exists (Fin (1/20)). split; auto. right. exists (1/20). split; auto. lra.
  - unfold tuning_init, check_lambdas_v, check_scalar_v, check_scalar. simpl. rewrite (proj2 (Rltb_false 3 0)) by lra. simpl. rewrite (proj2 (Rltb_true 1 3)) by lra. reflexivity.
  - unfold tuning_init, check_lambdas_v, check_scalar_v, check_scalar. simpl. rewrite (proj2 (Rltb_false 3 0)) by lra. simpl. unfold Reqb. destruct (Req_EM_T 3 3); [reflexivity|lra].
  - apply C123_tuned. split.
    + exists [VInt 3], [Fin 3]. split; auto. split; [discriminate|]. split.
      * constructor; [split; [apply N|right; exists 3; split; auto; lra]|constructor].
      * split; auto. repeat constructor.
    + split; [exists "mse"%string; simpl; auto|]. split; [exists true; auto|]. split; [|exists false; auto].
      exists NaN. split; auto. left; auto.
Qed.

(** ** C124: network learners *)

(** The keyword arguments of the reward model: every name must be a parameter of it. *)
Definition known_names (own : list string) (c : net_params) (d : list (string * pyv)) : Prop :=
  forall k v, In (k, v) d -> ~ In k own -> field c k <> None.

(** [NNPolicyLearner] is built exactly when its arguments are accepted and, for the objectives that use a reward model,
    the documented defaults overridden by [q_func_estimator_hyperparams] are accepted by that model.  The networks have
    the documented layers; only the policy network ends in a softmax. *)
Theorem C124_learner : forall na ll dim obj lam pr vr hyper c net l q, NoDup (map fst (entries hyper)) ->
  nn_learner_init na ll dim obj lam pr vr hyper c = Ok (net, l, q) <->
  exists K d hidden act, learner_accepted na ll dim obj lam pr vr hyper c K d hidden act l /\
    net = mkArch (chain d hidden K) act true /\
    ((one_of ["dr"; "dm"]%string obj /\
        known_names ["n_actions"; "dim_context"]%string (net_defaults 200) (entries hyper) /\
        exists c' hidden' act', overridden ["n_actions"; "dim_context"]%string (net_defaults 200) (entries hyper) c' /\
          net_accepted c' hidden' act' /\ q = Some (mkArch (chain d hidden' K) act' false)) \/
     (~ one_of ["dr"; "dm"]%string obj /\ q = None)).
Proof.
  intros na ll dim obj lam pr vr hyper c net l q Hnd. rewrite learner_iff. split.
  - intros (K & d & hs & act & HA & -> & Hq). exists K, d, hs, act. split; [exact HA|]. split; [reflexivity|].
    destruct Hq as [(Ho & cq & a & Hcq & Hqa & ->)|Hq]; [left|right; exact Hq]. apply with_kwargs_ok in Hcq as [H1 H2]; auto.
    apply qfunc_iff in Hqa as (d' & hs' & act' & Hd' & _ & Hn' & ->). destruct HA as [_ _ [Hd _] _ _ _ _ _].
    rewrite (integer_fun _ _ _ Hd' Hd). split; [exact Ho|]. split; [exact H1|]. exists cq, hs', act'. split; [exact H2|]. split; [exact Hn'|reflexivity].
  - intros (K & d & hs & act & HA & -> & Hq). exists K, d, hs, act. split; [exact HA|]. split; [reflexivity|].
    destruct Hq as [(Ho & H1 & c' & hs' & act' & H2 & Hn' & ->)|Hq]; [left|right; exact Hq]. split; [exact Ho|].
    exists c', (mkArch (chain d hs' K) act' false). split; [apply with_kwargs_ok; [exact Hnd|split; [exact H1|exact H2]]|]. split; [|reflexivity].
    apply qfunc_iff. destruct HA as [_ _ [Hd Hd1] _ _ _ _ _]. exists d, hs', act'. split; [exact Hd|]. split; [exact Hd1|]. split; [exact Hn'|reflexivity].
Qed.

(** [QFuncEstimator] and [QFuncEstimatorForContinuousAction]. *)
Theorem C124_qfunc : forall K dim c a,
  (qfunc_init K dim c = Ok a <-> exists d hidden act, integer dim d /\ (1 <= d)%Z /\ net_accepted c hidden act /\ a = mkArch (chain d hidden K) act false) /\
  (qfunc_cont_init dim c = Ok a <-> exists d hidden act, integer dim d /\ (1 <= d)%Z /\ net_accepted c hidden act /\ a = mkArch (chain (d + 1) hidden 1) act false).
Proof. intros. split; [apply qfunc_iff|apply qfunc_cont_iff]. Qed.

(** [NNPolicyLearnerForContinuousAction]. *)
Theorem C124_continuous : forall dim m h space hyper c net q, NoDup (map fst (entries hyper)) ->
  cont_learner_init dim m h space hyper c = Ok (net, q) <->
  exists d hidden act, cont_learner_accepted dim m h space hyper c d hidden act /\ net = mkArch (chain d hidden 1) act false /\
    ((m <> VStr "ipw" /\ known_names ["dim_context"]%string (net_defaults 100) (entries hyper) /\
        exists c' hidden' act', overridden ["dim_context"]%string (net_defaults 100) (entries hyper) c' /\
          net_accepted c' hidden' act' /\ q = Some (mkArch (chain (d + 1) hidden' 1) act' false)) \/
     (m = VStr "ipw" /\ q = None)).
Proof.
  intros dim m h sp hyper c net q Hnd. rewrite cont_learner_iff. split.
  - intros (d & hs & act & HA & -> & Hq). exists d, hs, act. split; [exact HA|]. split; [reflexivity|].
    destruct Hq as [(Ho & cq & a & Hcq & Hqa & ->)|Hq]; [left|right; exact Hq]. apply with_kwargs_ok in Hcq as [H1 H2]; auto.
    apply qfunc_cont_iff in Hqa as (d' & hs' & act' & Hd' & _ & Hn' & ->). destruct HA as [[Hd _] _ _ _ _ _].
    rewrite (integer_fun _ _ _ Hd' Hd). split; [exact Ho|]. split; [exact H1|]. exists cq, hs', act'. split; [exact H2|]. split; [exact Hn'|reflexivity].
  - intros (d & hs & act & HA & -> & Hq). exists d, hs, act. split; [exact HA|]. split; [reflexivity|].
    destruct Hq as [(Ho & H1 & c' & hs' & act' & H2 & Hn' & ->)|Hq]; [left|right; exact Hq]. split; [exact Ho|].
    exists c', (mkArch (chain (d + 1) hs' 1) act' false). split; [apply with_kwargs_ok; [exact Hnd|split; [exact H1|exact H2]]|]. split; [|reflexivity].
    apply qfunc_cont_iff. destruct HA as [[Hd Hd1] _ _ _ _ _]. exists d, hs', act'. split; [exact Hd|]. split; [exact Hd1|]. split; [exact Hn'|reflexivity].
Qed.

(** A rejected argument is reported as a TypeError or a ValueError. *)
Definition input_error {A} (r : res A) : Prop := forall e, r = Err e -> e = TypeError \/ e = ValueError.

Lemma ie_ok {A} (x : A) : input_error (Ok x).
Proof. intros e E; discriminate. Qed.
Lemma ie_type {A} : @input_error A (Err TypeError).
Proof. intros e E; injection E as <-; auto. Qed.
Lemma ie_value {A} : @input_error A (Err ValueError).
Proof. intros e E; injection E as <-; auto. Qed.
Lemma ie_bind {A B} (a : res A) (k : A -> res B) : input_error a -> (forall x, input_error (k x)) -> input_error (bind a k).
Proof. intros Ha Hk e. destruct a; simpl; [apply Hk|intros E; injection E as <-; auto]. Qed.
Lemma ie_raise b e : e = TypeError \/ e = ValueError -> input_error (raise_if b e).
Proof. intros He e'. destruct b; simpl; [intros E; injection E as <-; auto|discriminate]. Qed.
Lemma ie_check v ty mn mx : input_error (check_scalar_v v ty mn mx).
Proof.
  unfold check_scalar_v. apply ie_bind; [apply ie_raise; auto|]. intros _.
  destruct (check_scalar_err (num_of v) mn mx) as [E|E]; rewrite E; [apply ie_ok|apply ie_value].
Qed.
Lemma ie_mapM {A B} (f : A -> res B) l : (forall x, input_error (f x)) -> input_error (mapM f l).
Proof. intros Hf. induction l; cbn [mapM]; [apply ie_ok|]. apply ie_bind; auto. intros y. apply ie_bind; auto. intros; apply ie_ok. Qed.
Ltac ie := repeat first [apply ie_ok|apply ie_type|apply ie_value|apply ie_check|apply ie_raise; solve [auto]|apply ie_mapM; intros []|apply ie_bind; [|intros ?]
  | match goal with |- input_error (if ?b then _ else _) => destruct b end
  | match goal with |- input_error (match ?b with _ => _ end) => destruct b end].

Theorem C124_errors : forall na ll dim obj lam pr vr hyper c m h space K,
  input_error (nn_learner_init na ll dim obj lam pr vr hyper c) /\ input_error (cont_learner_init dim m h space hyper c) /\
  input_error (qfunc_init K dim c) /\ input_error (qfunc_cont_init dim c).
Proof.
  intros.
  assert (Hh : forall v, input_error (hidden_sizes v)) by (intros; unfold hidden_sizes; ie).
  assert (Hn : forall c, input_error (net_checks c)) by (intros; unfold net_checks; ie; apply Hh).
  assert (Ha : forall c, input_error (net_checks_adam c)) by (intros; unfold net_checks_adam; ie).
  assert (Hs : forall c, input_error (check_seed c)) by (intros; unfold check_seed; ie).
  assert (Hact : forall c, input_error (activation_of c)) by (intros; unfold activation_of; ie).
  assert (Hy : forall v, input_error (check_hyperparams v)) by (intros; unfold check_hyperparams; ie).
  assert (Hf : forall c kv, input_error (set_field c kv)) by (intros [] ?; unfold set_field; ie).
  assert (Hw : forall own d c, input_error (with_kwargs own c d)) by (intros own; induction d; intros; cbn [with_kwargs]; ie; auto).
  assert (Hl : forall o l, input_error (nn_lambda_v o l)) by (intros; unfold nn_lambda_v; ie).
  assert (Hq : forall K dim c, input_error (qfunc_init K dim c)) by (intros; unfold qfunc_init; ie; auto).
  assert (Hqc : forall dim c, input_error (qfunc_cont_init dim c)) by (intros; unfold qfunc_cont_init; ie; auto).
  split; [unfold nn_learner_init; ie; auto|]. split; [unfold cont_learner_init; ie; auto|]. auto.
Qed.

(** A learner that was built can still be refused by the optimiser when [fit] is called: exactly when the parameters of
    the chosen solver are NaN, a beta is 1, or Nesterov's method is used with momentum 0. *)
Theorem C124_optimizer : forall c hidden act, net_accepted c hidden act ->
  (optimizer_ok c = Ok tt <-> optimizer_accepts c) /\ (optimizer_ok c = Ok tt \/ optimizer_ok c = Err ValueError).
Proof.
  intros c hs act H. split; [apply (optimizer_iff c hs act H)|]. destruct (na_solver _ _ _ H) as (s & Hs & Es). unfold optimizer_ok. rewrite Es.
  simpl in Hs. destruct Hs as [<-|[<-|[<-|[]]]]; cbn [is_str String.eqb Ascii.eqb Bool.eqb]; unfold raise_if;
    repeat match goal with |- context [if ?b then _ else _] => destruct b; simpl; auto end.
Qed.

(** The default parameters are accepted, by the optimiser as well. *)
Lemma defaults_accepted n : (1 <= n)%Z -> net_accepted (net_defaults n) [100%Z] ARelu.
Proof.
  intros Hn. unfold net_defaults. constructor; cbn [np_hidden np_activation np_solver np_alpha np_batch np_lr np_max_iter np_shuffle np_random_state np_tol np_momentum np_nesterov
         np_early np_valfrac np_beta1 np_beta2 np_eps np_no_change].
  - exists [VInt 100]. split; auto. split; repeat constructor; lia.
  - reflexivity.
  - exists "adam"%string. simpl; auto.
  - eexists; split; [reflexivity|]. right. right. eexists; split; [reflexivity|lra].
  - auto.
  - eexists; split; [reflexivity|]. right. right. eexists; split; [reflexivity|lra].
  - exists n. split; [constructor|auto].
  - exists true; auto.
  - left; auto.
  - eexists; split; [reflexivity|]. right. right. eexists; split; [reflexivity|lra].
  - eexists; split; [reflexivity|]. right. eexists; split; [reflexivity|lra].
  - exists true; auto.
  - exists false; auto.
  - eexists; split; [reflexivity|]. right. split; [eexists; split; [reflexivity|lra]|]. intros E; injection E as E. lra.
  - eexists; split; [reflexivity|]. right. eexists; split; [reflexivity|lra].
  - eexists; split; [reflexivity|]. right. eexists; split; [reflexivity|lra].
  - eexists; split; [reflexivity|]. right. right. eexists; split; [reflexivity|lra].
  - exists 10%Z. split; [constructor|lia].
Qed.

Example C124_default_learner :
  nn_learner_init (VInt 3) (VInt 1) (VInt 5) (VStr "dr") VNone (VFloat (Fin 0)) (VInt 0)
    (VDict [("n_actions", VStr "ignored"); ("hidden_layer_size", VTuple [VInt 4; VInt 2])])%string (net_defaults 200) =
  Ok (mkArch [(5, 100); (100, 3)]%Z ARelu true, None, Some (mkArch [(5, 4); (4, 2); (2, 3)]%Z ARelu false)).
Proof.
  apply C124_learner.
  { simpl. constructor; [intros [E|[]]; discriminate|]. constructor; auto. constructor. }
  exists 3%Z, 5%Z, [100%Z], ARelu. split; [|split; [reflexivity|]].
  - constructor.
    + split; [constructor|lia].
    + exists 1%Z. split; [constructor|lia].
    + split; [constructor|lia].
    + right; right; right. split; auto. exists "dr"%string. simpl; auto.
    + exists (Fin 0). split; [apply number_float|]. right; right. exists 0. split; auto; lra.
    + exists (Fin 0). split; [apply number_int; constructor|]. right; right. exists 0. split; auto; lra.
    + right. eexists. reflexivity.
    + apply defaults_accepted. lia.
  - left. split; [exists "dr"%string; simpl; auto|]. split.
    + intros k v [E|[E|[]]] Hn; injection E as <- <-; [exfalso; apply Hn; simpl; auto|]. discriminate.
    + set (c0 := net_defaults 200).
      exists (mkNet (VTuple [VInt 4; VInt 2]) (np_activation c0) (np_solver c0) (np_alpha c0) (np_batch c0) (np_lr c0) (np_max_iter c0) (np_shuffle c0)
        (np_random_state c0) (np_tol c0) (np_momentum c0) (np_nesterov c0) (np_early c0) (np_valfrac c0) (np_beta1 c0) (np_beta2 c0) (np_eps c0) (np_no_change c0)), [4%Z; 2%Z], ARelu.
      split; [|split; [|reflexivity]].
      * match goal with |- overridden ?own _ ?d ?c' => assert (Hnd : NoDup (map fst d)); [|assert (Hkw : with_kwargs own c0 d = Ok c') by reflexivity] end.
        { simpl. constructor; [intros [E|[]]; discriminate|]. constructor; auto. constructor. }
        exact (proj2 (proj1 (with_kwargs_ok _ _ Hnd _ _) Hkw)).
      * assert (H : net_accepted c0 [100%Z] ARelu) by (apply defaults_accepted; lia). destruct H. constructor; try assumption.
        exists [VInt 4; VInt 2]. split; auto. split; repeat constructor; lia.
Qed.

(** The documented defaults with the solver 'sgd' and [momentum=0.0]: built, but refused by [fit]; likewise [beta_1=1.0]
    with 'adam', and a NaN learning rate. *)
Definition with_solver (s : string) (lr momentum beta1 : num) : net_params :=
  let c := net_defaults 200 in
  mkNet (np_hidden c) (np_activation c) (VStr s) (np_alpha c) (np_batch c) (VFloat lr) (np_max_iter c) (np_shuffle c) (np_random_state c)
    (np_tol c) (VFloat momentum) (np_nesterov c) (np_early c) (np_valfrac c) (VFloat beta1) (np_beta2 c) (np_eps c) (np_no_change c).

Theorem C124_optimizer_refuted : forall s lr momentum beta1,
  one_of ["sgd"; "adam"; "adagrad"]%string (VStr s) -> or_nan (above 0) lr -> or_nan (between 0 1) momentum -> or_nan (between 0 1) beta1 ->
  (exists a, qfunc_init 3 (VInt 5) (with_solver s lr momentum beta1) = Ok a) /\
  (s = "sgd"%string /\ (momentum = Fin 0 \/ momentum = NaN) \/ s = "adam"%string /\ (beta1 = Fin 1 \/ beta1 = NaN) \/ lr = NaN ->
   optimizer_ok (with_solver s lr momentum beta1) = Err ValueError).
Proof.
  intros s lr mo b1 (s' & Hs & Es) Hlr Hmo Hb1. injection Es as <-.
  assert (H : net_accepted (with_solver s lr mo b1) [100%Z] ARelu).
  { assert (H0 : net_accepted (net_defaults 200) [100%Z] ARelu) by (apply defaults_accepted; lia). destruct H0. constructor; try assumption.
    - exists s. split; auto. simpl in *; tauto.
    - exists lr; auto.
    - exists mo; auto.
    - exists b1; auto. }
  split; [eexists; apply C124_qfunc; exists 5%Z, [100%Z], ARelu; split; [constructor|split; [lia|split; [exact H|reflexivity]]]|].
  intros Hc. destruct (C124_optimizer _ _ _ H) as [Hi [Ho|Ho]]; auto. exfalso. apply Hi in Ho.
  assert (A0 : forall x, float_in (at_least 0) (VFloat x) -> x <> NaN).
  { intros x (y & E & [->|(r & -> & _)]); injection E as ->; discriminate. }
  destruct Ho as [(E & H1 & _ & H2 & H3)|[(E & H1 & _)|(E & H1 & _ & _ & H4 & _)]]; simpl in E; injection E as ->; simpl in H1; apply A0 in H1.
  - destruct Hc as [[_ Hm]|[[E _]|Hl]]; [|discriminate|auto]. apply A0 in H2. destruct Hm as [->| ->]; auto.
    destruct (H3 eq_refl) as (x & E & [->|(r & -> & Hr)]); injection E as E; try discriminate. lra.
  - destruct Hc as [[E _]|[[E _]|Hl]]; auto; discriminate.
  - destruct Hc as [[E _]|[[_ Hb]|Hl]]; auto; [discriminate|]. destruct H4 as (x & E & (r & -> & Hr) & Hn). injection E as ->. destruct Hb; [auto|discriminate].
Qed.

Example C124_optimizer_meets : net_accepted (net_defaults 200) [100%Z] ARelu /\ optimizer_ok (net_defaults 200) = Ok tt.
Proof.
  assert (H : net_accepted (net_defaults 200) [100%Z] ARelu) by (apply defaults_accepted; lia). split; auto.
  apply (C124_optimizer _ _ _ H). right; right. simpl. split; auto.
  split; [eexists; split; [reflexivity|right; eexists; split; [reflexivity|lra]]|].
  split; [eexists; split; [reflexivity|right; eexists; split; [reflexivity|lra]]|].
  split; [eexists; split; [reflexivity|right; eexists; split; [reflexivity|lra]]|].
  split; (eexists; split; [reflexivity|split; [eexists; split; [reflexivity|lra]|intros E; injection E as E; lra]]).
Qed.

Print Assumptions C122_estimators.
Print Assumptions C122_bipw.
Print Assumptions C122_kernel.
Print Assumptions C123_tuned.
Print Assumptions C124_learner.
Print Assumptions C124_qfunc.
Print Assumptions C124_continuous.
Print Assumptions C124_errors.
Print Assumptions C124_optimizer.
Print Assumptions C124_optimizer_refuted.
Print Assumptions C122_bipw_kernel_errors.
