(** * P_NN: the policies and reward models of the network learners, and their training. *)

From Coq Require Import Reals List ZArith Bool Lia Lra Permutation.
From Verif Require Import Num NpList M_Utils M_Feedback M_Cont M_Offline M_Init M_NN S_Base S_Offline S_Init S_NN
  L_Num L_Base L_Offline L_Init L_Act L_NN P_Offline.
Import ListNotations.
Open Scope R_scope.

(** ** C126: what a neural network policy can express *)

(** predict_proba plays a fixed function of each row: every action gets positive probability and they sum to one;
    predict plays the action of the largest probability (the first on ties); a context with the wrong number of columns is rejected. *)
Theorem C126_policy : forall d K hidden act params, (0 < K)%Z -> Forall (fun h => (0 < h)%Z) hidden ->
  let net := mkArch (chain d hidden K) act true in
  fits net params ->
  exists p : list R -> nat -> R,
    plays (Z.to_nat d) (Z.to_nat K) net params p /\
    (forall x, length x = Z.to_nat d -> (forall a, (a < Z.to_nat K)%nat -> 0 < p x a) /\ sumn (Z.to_nat K) (p x) = 1) /\
    (forall contexts, Forall (fun x => length x = Z.to_nat d) contexts ->
       exists best, policy_predict (Z.to_nat d) (Z.to_nat K) net params (Z.to_nat d) contexts
                      = Ok (one_hot3 (length contexts) (Z.to_nat K) 1 best) /\
         forall i, (i < length contexts)%nat -> first_best (Z.to_nat K) (p (nth i contexts [])) (best i 0%nat)) /\
    (forall cols contexts, cols <> Z.to_nat d ->
       policy_predict_proba (Z.to_nat d) net params cols contexts = Err ValueError /\
       policy_predict (Z.to_nat d) (Z.to_nat K) net params cols contexts = Err ValueError).
Proof.
  intros d K hidden act params HK Hh net Hf. exists (net_prob act params (Z.to_nat K)). assert (0 < Z.to_nat K)%nat by lia.
  split; [apply net_plays; auto|]. split; [|split].
  - intros x Hx. split; [intros; apply net_prob_pos; auto|apply net_prob_sum; auto].
  - intros contexts Hc. destruct (C74_nn_predict (length contexts) (Z.to_nat K) (fun i => net_prob act params (Z.to_nat K) (nth i contexts []))) as (best & E & Hb); auto.
    exists best. split; auto. unfold policy_predict, check_dim. rewrite Nat.eqb_refl. cbn [negb raise_if bind].
    rewrite <- E. f_equal. rewrite (list_tab contexts []) at 1. rewrite map_tab. unfold tab2F. apply tab_ext. intros i Hi.
    unfold net. rewrite net_row; auto. unfold tab at 1. rewrite map_map. reflexivity. rewrite Forall_forall in Hc. apply Hc, nth_In; auto.
  - intros cols contexts Hc. unfold policy_predict_proba, policy_predict, check_dim. rewrite (proj2 (Nat.eqb_neq _ _)) by auto. auto.
Qed.

(** The policy is the softmax of the scores of the multi-layer perceptron with the named activation. *)
Lemma act_spec a v : act_fun a v = activation_spec a v.
Proof.
  destruct a; simpl; auto.
  - unfold Rdiv. ring.
  - unfold tanh, sinh, cosh. pose proof (exp_pos v). pose proof (exp_pos (- v)). field. lra.
  - rcase; [rewrite Rmax_left|rewrite Rmax_right]; lra.
  - destruct (Rle_dec 0 v); rcase; try lra. replace v with 0 by lra. rewrite exp_0. ring.
Qed.
Lemma sumn_mlp_ext d (w x y : nat -> R) : (forall k, (k < d)%nat -> x k = y k) -> sumn d (fun k => w k * x k) = sumn d (fun k => w k * y k).
Proof. intros H. apply sumn_ext. intros k Hk. rewrite H; auto. Qed.
Lemma mlp_ext sigma : forall layers d x y a, (forall k, (k < d)%nat -> x k = y k) -> layers <> [] -> mlp sigma layers d x a = mlp sigma layers d y a.
Proof.
  induction layers as [|l [|l' r] IH]; intros d x y a H Hne; [easy| |].
  - simpl. f_equal. apply sumn_mlp_ext; auto.
  - cbn [mlp]. apply IH; [|easy]. intros k _. do 2 f_equal. apply sumn_mlp_ext; auto.
Qed.
Lemma forward_mlp a : forall hidden d K layers x c, (0 <= K)%Z -> Forall (fun h => (0 < h)%Z) hidden ->
  fits (mkArch (chain d hidden K) a true) layers -> length x = Z.to_nat d -> (c < Z.to_nat K)%nat ->
  nth c (forward a layers x) 0 = mlp (activation_spec a) layers (Z.to_nat d) (fun k => nth k x 0) c.
Proof.
  intros hidden d K layers x c HK. revert d layers x. induction hidden as [|h hidden IH]; intros d layers x Hh Hf Hx Hc; unfold fits in Hf; cbn [ar_layers] in Hf; rewrite <- chain_layers in Hf; cbn [linear_layers] in Hf.
  - inversion Hf as [|l ? ls ? (H1 & H2 & H3) Hn]; subst. inversion Hn; subst. cbn [forward mlp].
    rewrite (linear_tab l (Z.to_nat d) (Z.to_nat K)) by auto. rewrite nth_tab by auto. reflexivity.
  - inversion Hf as [|l ? ls ? (H1 & H2 & H3) Hn]; subst. inversion Hh; subst.
    destruct ls as [|l' ls]; [destruct hidden; inversion Hn|]. rewrite forward_cons.
    assert (Hl : length (map (act_fun a) (linear l x)) = Z.to_nat h) by (rewrite map_length, (linear_tab l (Z.to_nat d) (Z.to_nat h)); auto; apply tab_length).
    cbn [snd] in H2. rewrite (IH h) by (auto; unfold fits; cbn [ar_layers]; rewrite <- chain_layers; auto).
    change (mlp (activation_spec a) (l :: l' :: ls) (Z.to_nat d)) with (fun x => mlp (activation_spec a) (l' :: ls) (length (ly_w l)) (fun j => activation_spec a (sumn (Z.to_nat d) (fun k => nth k (nth j (ly_w l) []) 0 * x k) + nth j (ly_b l) 0))). cbv beta. rewrite H2. apply mlp_ext; [|easy]. intros k Hk.
    rewrite (nth_map_lt _ _ k 0) by (rewrite map_length in Hl; lia). rewrite (linear_tab l (Z.to_nat d) (Z.to_nat h)) by auto. rewrite nth_tab by auto. apply act_spec.
Qed.
Theorem C126_scores : forall d K hidden act params p, (0 < K)%Z -> Forall (fun h => (0 < h)%Z) hidden ->
  let net := mkArch (chain d hidden K) act true in
  fits net params -> plays (Z.to_nat d) (Z.to_nat K) net params p ->
  forall x a, length x = Z.to_nat d -> (a < Z.to_nat K)%nat ->
    let score := mlp (activation_spec act) params (Z.to_nat d) (fun k => nth k x 0) in
    p x a = exp (score a) / sumn (Z.to_nat K) (fun b => exp (score b)).
Proof.
  intros d K hidden act params p HK Hh net Hf Hp x a Hx Ha score.
  rewrite (plays_unique _ _ _ _ _ _ Hp (net_plays act hidden d K params HK Hh Hf) x a Hx Ha). unfold net_prob, score.
  rewrite (forward_mlp act hidden d K) by (auto; lia). f_equal. apply sumn_ext. intros b Hb. rewrite (forward_mlp act hidden d K) by (auto; lia). reflexivity.
Qed.

(** Without hidden layers, or with the identity activation, the policy is log-linear: a softmax of affine scores. *)
Theorem C126_log_linear : forall d K hidden act params p, (0 < K)%Z -> Forall (fun h => (0 < h)%Z) hidden ->
  act = AIdentity \/ hidden = [] ->
  let net := mkArch (chain d hidden K) act true in
  fits net params -> plays (Z.to_nat d) (Z.to_nat K) net params p ->
  exists score, affine (Z.to_nat d) (Z.to_nat K) score /\
    forall x a, length x = Z.to_nat d -> (a < Z.to_nat K)%nat ->
      p x a = exp (nth a (score x) 0) / sumn (Z.to_nat K) (fun b => exp (nth b (score x) 0)).
Proof.
  intros d K hidden act params p HK Hh Ha net Hf Hp. exists (forward act params). split.
  - apply (forward_affine hidden); auto.
  - intros x a Hx Hlt. apply (plays_unique _ _ _ _ _ _ Hp (net_plays act hidden d K params HK Hh Hf)); auto.
Qed.

(** With a bounded activation (logistic, tanh) and a hidden layer, no action's probability comes arbitrarily close to zero. *)
Theorem C126_bounded_away : forall d K h hidden act params p, (0 < K)%Z -> Forall (fun h => (0 < h)%Z) (h :: hidden) ->
  act = ALogistic \/ act = ATanh ->
  let net := mkArch (chain d (h :: hidden) K) act true in
  fits net params -> plays (Z.to_nat d) (Z.to_nat K) net params p ->
  exists eps, 0 < eps /\ forall x a, length x = Z.to_nat d -> (a < Z.to_nat K)%nat -> eps <= p x a.
Proof.
  intros d K h hidden act params p HK Hh Ha net Hf Hp. assert (HKn : (0 < Z.to_nat K)%nat) by lia.
  assert (Hl : exists l l' r, params = l :: l' :: r).
  { unfold fits, net in Hf. cbn [ar_layers] in Hf. rewrite <- chain_layers in Hf. cbn [linear_layers] in Hf.
    inversion Hf as [|l ? ls ? _ Hn]; subst. destruct ls as [|l' r]; [destruct hidden; inversion Hn|]. eauto. }
  destruct Hl as (l & l' & r & ->). destruct (forward_bounded_everywhere act l l' r Ha) as (M & HM & H).
  assert (HKR : 0 < INR (Z.to_nat K)) by (apply (lt_INR 0); auto).
  exists (exp (- M) / (INR (Z.to_nat K) * exp M)). split.
  { apply Rdiv_lt_0_compat; [apply exp_pos|]. apply Rmult_lt_0_compat; [auto|apply exp_pos]. }
  intros x a Hx Hlt. rewrite (plays_unique _ _ _ _ _ _ Hp (net_plays act _ d K _ HK Hh Hf) x a Hx Hlt).
  assert (Hy : forall b, (b < Z.to_nat K)%nat -> - M <= nth b (forward act (l :: l' :: r) x) 0 <= M).
  { intros b Hb. specialize (H x). unfold bounded in H. rewrite Forall_forall in H.
    assert (Hin : In (nth b (forward act (l :: l' :: r) x) 0) (forward act (l :: l' :: r) x)).
    { apply nth_In. rewrite (forward_length act (h :: hidden) d K); auto; lia. }
    apply H in Hin. apply Rabs_between in Hin. auto. }
  unfold net_prob. unfold Rdiv. apply Rmult_le_compat; try (left; apply exp_pos).
  - left. apply Rinv_0_lt_compat, Rmult_lt_0_compat; [auto|apply exp_pos].
  - apply exp_le_mono. apply Hy; auto.
  - apply Rinv_le_contravar; [apply sum_exp_pos; auto|]. rewrite <- sumn_const. apply sumn_le. intros b Hb. apply exp_le_mono. apply Hy; auto.
Qed.

(** For fixed parameters similar contexts are treated similarly: the log-probabilities are Lipschitz in the context. *)
Theorem C126_smooth : forall d K hidden act params p, (0 < K)%Z -> Forall (fun h => (0 < h)%Z) hidden ->
  let net := mkArch (chain d hidden K) act true in
  fits net params -> plays (Z.to_nat d) (Z.to_nat K) net params p ->
  exists C, 0 <= C /\ forall D x y a, 0 <= D -> length x = Z.to_nat d -> length y = Z.to_nat d -> close D x y ->
    (a < Z.to_nat K)%nat -> p x a <= exp (C * D) * p y a.
Proof.
  intros d K hidden act params p HK Hh net Hf Hp. assert (HKn : (0 < Z.to_nat K)%nat) by lia.
  destruct (forward_close act params) as (C & HC & H). exists (2 * C). split; [lra|]. intros D x y a HD Hx Hy Hxy Ha.
  specialize (H D x y HD Hxy). pose proof (net_plays act hidden d K params HK Hh Hf) as Hq.
  rewrite (plays_unique _ _ _ _ _ _ Hp Hq x a Hx Ha), (plays_unique _ _ _ _ _ _ Hp Hq y a Hy Ha). unfold net_prob.
  set (u := forward act params x) in *. set (v := forward act params y) in *.
  assert (Hlen : length u = Z.to_nat K) by (apply (forward_length act hidden d K); auto; lia).
  assert (Hc : forall b, (b < Z.to_nat K)%nat -> Rabs (nth b u 0 - nth b v 0) <= C * D) by (intros; apply nth_close; auto; lia).
  pose proof (sum_exp_pos _ u HKn) as Pu. pose proof (sum_exp_pos _ v HKn) as Pv.
  assert (H1 : exp (nth a u 0) <= exp (C * D) * exp (nth a v 0)).
  { rewrite <- exp_plus. apply exp_le_mono. specialize (Hc a Ha). apply Rabs_between in Hc. lra. }
  assert (H2 : sumn (Z.to_nat K) (fun b => exp (nth b v 0)) <= exp (C * D) * sumn (Z.to_nat K) (fun b => exp (nth b u 0))).
  { rewrite <- sumn_scal. apply sumn_le. intros b Hb. rewrite <- exp_plus. apply exp_le_mono. specialize (Hc b Hb). apply Rabs_between in Hc. lra. }
  set (su := sumn _ (fun b => exp (nth b u 0))) in *. set (sv := sumn _ (fun b => exp (nth b v 0))) in *.
  apply Rmult_le_reg_r with (su * sv); [apply Rmult_lt_0_compat; auto|].
  replace (exp (nth a u 0) / su * (su * sv)) with (exp (nth a u 0) * sv) by (field; lra).
  replace (exp (2 * C * D) * (exp (nth a v 0) / sv) * (su * sv)) with ((exp (C * D) * exp (nth a v 0)) * (exp (C * D) * su)).
  2:{ replace (2 * C * D) with (C * D + C * D) by ring. rewrite exp_plus. field. lra. }
  apply Rmult_le_compat; auto; left; auto. apply exp_pos.
Qed.

(** One hidden ReLU unit, x0 - x1: in context (3, 1) the scores are 0 and 2. *)
Example C126_example :
  let params := [mkLayer [[1; -1]] [0]; mkLayer [[0]; [1]] [0; 0]] in
  let net := mkArch (chain 2 [1] 2)%Z ARelu true in
  fits net params /\ Forall (fun h => (0 < h)%Z) [1%Z] /\
  policy_predict_proba 2 net params 2 [[3; 1]] = Ok [[[Fin (1 / (1 + exp 2))]; [Fin (exp 2 / (1 + exp 2))]]] /\
  policy_predict 2 2 net params 2 [[3; 1]] = Ok [[[Fin 0]; [Fin 1]]].
Proof.
  intros params net.
  assert (Hf : fits net params) by (repeat constructor).
  assert (Hn : network net params [3; 1] = [1 / (1 + exp 2); exp 2 / (1 + exp 2)]).
  { unfold network, net, params. cbn [ar_act ar_softmax forward]. unfold linear. cbn [ly_w ly_b combine map fst snd]. unfold dotp. cbn [combine fold_right fst snd].
    unfold act_fun. replace (1 * 3 + (-1 * 1 + 0) + 0) with 2 by ring. replace (Rltb 2 0) with false by (symmetry; apply Rltb_false; lra).
    unfold softmax_row. cbn [map fold_right]. replace (0 * 2 + 0 + 0) with 0 by ring. replace (1 * 2 + 0 + 0) with 2 by ring. rewrite exp_0.
    rewrite Rplus_0_r. reflexivity. }
  assert (He : 1 < exp 2) by (rewrite <- exp_0; apply exp_increasing; lra).
  split; auto. split; [repeat constructor|]. unfold policy_predict_proba, policy_predict, check_dim. cbn [map Nat.eqb negb raise_if bind]. rewrite Hn. split; [reflexivity|].
  unfold nn_predict. cbn [map mapM]. unfold np_argmax.
  assert (Hlt : 1 / (1 + exp 2) < exp 2 / (1 + exp 2)) by (unfold Rdiv; apply Rmult_lt_compat_r; [apply Rinv_0_lt_compat; lra|lra]).
  cbn. replace (Rltb (1 / (1 + exp 2)) (exp 2 / (1 + exp 2))) with true by (symmetry; apply Rltb_true; auto). reflexivity.
Qed.

Print Assumptions C126_policy.
Print Assumptions C126_scores.
Print Assumptions C126_log_linear.
Print Assumptions C126_bounded_away.
Print Assumptions C126_smooth.
Print Assumptions C126_example.
