(** * P_DataCont: the continuous-action generator (C109, C110). *)

From Coq Require Import String Reals List ZArith Lia Lra Bool Psatz.
From Verif Require Import Num NpList M_Utils M_Data S_Base S_Data L_Num L_Base L_Utils L_Examples L_Data P_Utils P_DataFun.
Import ListNotations.
Open Scope R_scope.

(** Bounds of the actions: (lo, hi) with lo < hi, possibly infinite. *)
Definition finite_bounds (lo hi : num) (a b : R) : Prop := lo = Fin a /\ hi = Fin b /\ a < b.

(** The constructor: everything but NaN bounds that is out of order or a negative noise is refused. *)
Theorem C109_init : forall dim an rn lo hi seed,
  (cont_ds_init dim (Fin an) (Fin rn) (Fin lo) (Fin hi) seed = Ok tt <->
     ((1 <= dim)%Z /\ 0 <= an /\ 0 <= rn /\ lo < hi /\ seed <> None)) /\
  (cont_ds_init dim (Fin an) (Fin rn) NInf PInf seed = Ok tt <-> ((1 <= dim)%Z /\ 0 <= an /\ 0 <= rn /\ seed <> None)) /\
  (forall e, cont_ds_init dim (Fin an) (Fin rn) (Fin lo) (Fin hi) seed = Err e -> e = ValueError).
Proof.
  intros. unfold cont_ds_init, check_scalar_Z, check_scalar. cbn [nlt nle].
  unfold Rltb, Rleb. destruct (Z.ltb_spec dim 1), (Rlt_dec an 0), (Rlt_dec rn 0), (Rle_dec hi lo), seed; cbn [raise_if bind]; intuition (discriminate || congruence || lra || lia).
Qed.

(** Uniform logging between finite bounds: actions in [lo, hi), density 1/(hi-lo), rewards = expected rewards + noise. *)
Theorem C109_uniform : forall draw pdf a b an reward n context u noise, a < b -> (forall i, 0 <= u i < 1) -> (0 < n)%nat ->
  (forall act, length act = n -> length (reward context act) = n) ->
  exists act, (forall i, (i < n)%nat -> act i = a + (b - a) * u i /\ a <= act i < b) /\
    let e := reward context (tabF n act) in
    cont_obtain draw pdf (Fin a) (Fin b) an (Some reward) None (Z.of_nat n) context u noise =
    Ok {| cb_n := n; cb_context := context; cb_action := tabF n act;
          cb_reward := tab n (fun i => nadd (nth i e NaN) (Fin (noise i))); cb_pscore := tab n (fun _ => Fin (1 / (b - a))); cb_expected := e |}.
Proof.
  intros draw pdf a b an reward n context u noise Hab Hu Hn Hl. exists (fun i => a + (b - a) * u i). split.
  { intros i Hi. specialize (Hu i). split; [reflexivity|]. nra. }
  cbv zeta. unfold cont_obtain, check_scalar_Z. destruct (Z.ltb_spec (Z.of_nat n) 1); [lia|]. cbn [raise_if bind]. rewrite Nat2Z.id.
  change (map (fun i => uniform_action (Fin a) (Fin b) (u i)) (seq 0 n)) with (tabF n (fun i => a + (b - a) * u i)).
  set (act := tabF n (fun i => a + (b - a) * u i)). set (e := reward context act).
  assert (Le : length e = n) by (apply Hl; apply tab_length). f_equal. f_equal.
  - replace (seq 0 n) with (tab n (fun i => i)) by (unfold tab; apply map_id). rewrite (tab_eta e NaN) at 1. rewrite Le, combine_tab, map_tab. reflexivity.
  - unfold act, tabF. rewrite map_tab. apply tab_ext. intros i Hi. specialize (Hu i). unfold uniform_pdf, nsub, nopp, nadd. rewrite ndiv_Fin by lra.
    replace ((a + (b - a) * u i + - a) / (b + - a)) with (u i) by (field; lra). cbn [nle]. rewrite (proj2 (Rleb_true 0 (u i))) by lra. rewrite (proj2 (Rleb_true (u i) 1)) by lra. cbn [andb].
    rewrite ndiv_Fin by lra. reflexivity.
Qed.

(** With an infinite bound (the default) uniform logging cannot work: every propensity is NaN, and with both bounds infinite
    every action too. *)
Theorem C109_infinite_bounds : forall draw pdf lo hi an reward n context u noise, nlt lo hi = true -> (forall a b, ~ finite_bounds lo hi a b) ->
  (forall i, 0 <= u i < 1) -> (0 < n)%nat ->
  exists cb, cont_obtain draw pdf lo hi an reward None (Z.of_nat n) context u noise = Ok cb /\
    cb_pscore cb = tab n (fun _ => NaN) /\ (lo = NInf -> cb_action cb = tab n (fun _ => NaN)).
Proof.
  intros draw pdf lo hi an reward n context u noise Hlt Hinf Hu Hn. unfold cont_obtain, check_scalar_Z. destruct (Z.ltb_spec (Z.of_nat n) 1); [lia|]. cbn [raise_if bind].
  rewrite Nat2Z.id. eexists. split; [reflexivity|]. cbn [cb_pscore cb_action].
  change (map (fun i => uniform_action lo hi (u i)) (seq 0 n)) with (tab n (fun i => uniform_action lo hi (u i))).
  assert (A : lo = NInf -> forall i, uniform_action lo hi (u i) = NaN).
  { intros -> i. unfold uniform_action. specialize (Hu i). destruct hi; cbn in Hlt |- *; try discriminate; unfold inf_sign, Rltb; destruct (Rlt_dec 0 (u i)); [reflexivity| |reflexivity|]; destruct (Rlt_dec (u i) 0); reflexivity || lra. }
  split.
  - rewrite map_tab. apply tab_ext. intros i Hi. destruct lo as [a| | |].
    + destruct hi as [b| | |]; try discriminate.
      * exfalso. apply (Hinf a b). cbn in Hlt. apply Rltb_true in Hlt. repeat split; auto.
      * unfold uniform_action. specialize (Hu i). cbn. unfold inf_sign, Rltb. destruct (Rlt_dec 0 (u i)); [reflexivity|]. destruct (Rlt_dec (u i) 0); reflexivity.
    + destruct hi; discriminate.
    + rewrite A by reflexivity. unfold uniform_pdf. cbn. destruct (nopp NInf); destruct hi; reflexivity.
    + destruct hi; discriminate.
  - intros E. apply tab_ext. intros i Hi. apply A. auto.
Qed.

(** Logging with a behaviour policy: truncated normals around its values between the bounds, and the propensity of a round is
    the density, with the same parameters, at the action drawn. *)
Theorem C109_behaviour : forall draw pdf lo hi an reward f n context u noise mu, (0 < n)%nat -> f context = tab n mu ->
  (forall act, length act = n -> length (reward context act) = n) ->
  let left i := ndiv (nsub lo (Fin (mu i))) (Fin an) in
  let right i := ndiv (nsub hi (Fin (mu i))) (Fin an) in
  let act i := draw (left i) (right i) (mu i) an i in
  let e := reward context (tabF n act) in
  cont_obtain draw pdf lo hi an (Some reward) (Some f) (Z.of_nat n) context u noise =
  Ok {| cb_n := n; cb_context := context; cb_action := tabF n act;
        cb_reward := tab n (fun i => nadd (nth i e NaN) (Fin (noise i)));
        cb_pscore := tabF n (fun i => pdf (act i) (left i) (right i) (mu i) an); cb_expected := e |}.
Proof.
  intros draw pdf lo hi an reward f n context u noise mu Hn Hf Hl left right act e. unfold cont_obtain, check_scalar_Z.
  destruct (Z.ltb_spec (Z.of_nat n) 1); [lia|]. cbn [raise_if bind]. rewrite Nat2Z.id. rewrite Hf. cbv zeta.
  assert (Es : seq 0 n = tab n (fun i => i)) by (unfold tab; symmetry; apply map_id).
  match goal with |- context [map ?g (combine (seq 0 n) (tab n mu))] =>
    replace (map g (combine (seq 0 n) (tab n mu))) with (tab n act) by (rewrite Es, combine_tab, map_tab; reflexivity) end.
  rewrite combine_tab, !map_tab. cbn [fst snd]. change (tab n (fun i => Fin (act i))) with (tabF n act). fold e.
  assert (Le : length e = n) by (apply Hl; apply tab_length). f_equal. f_equal.
  replace (seq 0 n) with (tab n (fun i => i)) by (unfold tab; apply map_id). rewrite (tab_eta e NaN) at 1. rewrite Le, combine_tab, map_tab. reflexivity.
Qed.

Theorem C109_no_rounds : forall draw pdf lo hi an reward beh n context u noise, (n < 1)%Z ->
  cont_obtain draw pdf lo hi an reward beh n context u noise = Err ValueError.
Proof. intros. unfold cont_obtain, check_scalar_Z. destruct (Z.ltb_spec n 1); [reflexivity|lia]. Qed.

(** The default reward function. *)
Theorem C109_default_reward : forall a, contextfree_reward (Fin a) = Fin (2 * (Rabs a * sqrt (Rabs a)) - 5 * a).
Proof.
  intros a. unfold contextfree_reward, rpow. f_equal. f_equal. f_equal.
  destruct (Reqb (Rabs a) 0) eqn:E.
  - apply Reqb_true in E. rewrite E. replace (Reqb (3 / 2) 0) with false; [ring|]. symmetry. apply Reqb_false. lra.
  - apply Reqb_false in E. assert (0 < Rabs a) by (pose proof (Rabs_pos a); lra).
    replace (3 / 2) with (1 + / 2) by lra. rewrite Rpower_plus, Rpower_1, Rpower_sqrt by auto. reflexivity.
Qed.
(** Infinite actions, which infinite bounds allow: the reward is an infinite gain or undefined. *)
Theorem C109_default_reward_infinite : contextfree_reward NInf = PInf /\ contextfree_reward PInf = NaN /\ contextfree_reward NaN = NaN.
Proof. auto. Qed.

(** The ground truth is the mean of the expected rewards; evaluated at the logged actions it is the mean of the expected
    rewards in the log. *)
Theorem C109_ground_truth : forall dim reward context action n e, (0 < n)%nat -> length context = n -> length action = n ->
  length (nth 0 context []) = dim ->
  match reward with None => map contextfree_reward action | Some f => f context action end = tabF n e ->
  cont_ground_truth dim reward context action = Ok (Fin (avg n e)).
Proof.
  intros dim reward context action n e Hn Hc Ha Hd He. unfold cont_ground_truth. rewrite Hd, Nat.eqb_refl. cbn [negb raise_if bind].
  rewrite Hc, Ha, Nat.eqb_refl. cbn [negb raise_if bind]. rewrite <- (nmean_tabF n e) by auto. rewrite <- He. destruct reward; reflexivity.
Qed.
Theorem C109_on_policy : forall draw pdf lo hi an reward beh n context u noise cb dim,
  cont_obtain draw pdf lo hi an reward beh n context u noise = Ok cb ->
  length context = length (cb_action cb) -> length (nth 0 context []) = dim ->
  cont_ground_truth dim reward (cb_context cb) (cb_action cb) = Ok (nmean (cb_expected cb)).
Proof.
  intros draw pdf lo hi an reward beh n context u noise cb dim H Hl Hd. unfold cont_obtain in H. destruct (check_scalar_Z n (Some 1%Z) None); [|discriminate]. cbn [bind] in H.
  destruct (match beh with Some f => _ | None => _ end) as [action pscore]. injection H as <-. cbn [cb_context cb_action cb_expected] in *.
  unfold cont_ground_truth. rewrite Hd, Nat.eqb_refl, Hl, Nat.eqb_refl. reflexivity.
Qed.
Theorem C109_ground_truth_rejects : forall dim reward context action,
  length (nth 0 context []) <> dim \/ length context <> length action -> cont_ground_truth dim reward context action = Err ValueError.
Proof.
  intros dim reward context action H. unfold cont_ground_truth. destruct (Nat.eqb_spec (length (nth 0 context [])) dim); cbn; [|reflexivity].
  destruct (Nat.eqb_spec (length context) (length action)); cbn; [|reflexivity]. tauto.
Qed.

(** ** C110: the built-in continuous reward and policies *)

(** The linear reward function and the linear behaviour policy draw the same numbers from the same seed: the coefficients are
    the same, so the reward at the behaviour policy's own value does not depend on the context. *)
Theorem C110_shared_coefficients : forall normal unif x, 0 < unif 0%nat ->
  linear_reward_cont normal unif x (linear_behavior_cont normal unif x) = Rpower (unif 0%nat) (unif 0%nat) + unif 1%nat.
Proof.
  intros normal unif x H. unfold linear_reward_cont, linear_behavior_cont.
  replace (rdot x (map normal (seq 0 (length x))) - (rdot x (map normal (seq 0 (length x))) + unif 0%nat)) with (- unif 0%nat) by ring.
  rewrite Rabs_Ropp, Rabs_right by lra. unfold rpow. replace (Reqb (unif 0%nat) 0) with false; [reflexivity|]. symmetry. apply Reqb_false. lra.
Qed.

(** In every context the reward of an action is that of its distance to the behaviour policy's value: contexts do not change
    which deviation is good. *)
Theorem C110_deviation : forall normal unif x y dev,
  linear_reward_cont normal unif x (linear_behavior_cont normal unif x + dev) = linear_reward_cont normal unif y (linear_behavior_cont normal unif y + dev).
Proof.
  intros. unfold linear_reward_cont, linear_behavior_cont. f_equal. f_equal. f_equal. ring.
Qed.

(** The linear reward function is smallest at the action x . coef and never below its bias. *)
Theorem C110_linear_minimum : forall normal unif x a, 0 < unif 0%nat ->
  let d := length x in
  let best := sumn d (fun k => nth k x 0 * normal k) in
  unif 1%nat <= linear_reward_cont normal unif x a /\ (linear_reward_cont normal unif x a = unif 1%nat <-> a = best).
Proof.
  intros normal unif x a Hu d best. unfold linear_reward_cont.
  assert (E : rdot x (map normal (seq 0 (length x))) = best).
  { rewrite (tab_eta x 0) at 1. change (map normal (seq 0 (length x))) with (tab (length x) normal). apply rdot_tab. }
  rewrite E. unfold rpow. destruct (Reqb (Rabs (best - a)) 0) eqn:Ez.
  - apply Reqb_true in Ez. assert (best - a = 0) by (destruct (Req_dec (best - a) 0); auto; exfalso; revert Ez; apply Rabs_no_R0; auto).
    replace (Reqb (unif 0%nat) 0) with false by (symmetry; apply Reqb_false; lra). split; [lra|]. split; [intros; lra|intros; lra].
  - apply Reqb_false in Ez. assert (0 < Rpower (Rabs (best - a)) (unif 0%nat)) by (unfold Rpower; apply exp_pos). split; [lra|]. split; [intros; lra|].
    intros ->. exfalso. apply Ez. rewrite Rminus_diag_eq by reflexivity. apply Rabs_R0.
Qed.

Lemma map_seq_add {A} (f : nat -> A) s n o : map (fun j => f (s + j)%nat) (seq o n) = map f (seq (s + o) n).
Proof. revert o. induction n as [|n IH]; intros o; [reflexivity|]. cbn. f_equal. rewrite IH. f_equal. f_equal. lia. Qed.
(** The quadratic reward function. *)
Theorem C110_quadratic : forall normal x a,
  let d := length x in
  let dot k := sumn d (fun j => nth j x 0 * normal (k * d + j)%nat) in
  quadratic_reward_cont normal x a = normal (3 * d)%nat * a * dot 0%nat + dot 1%nat * a + (a - dot 2%nat) ^ 2.
Proof.
  intros normal x a d dot. unfold quadratic_reward_cont. fold d.
  assert (E : forall k, rdot x (map normal (seq (k * d) d)) = dot k).
  { intros k. rewrite (tab_eta x 0) at 1. fold d. replace (map normal (seq (k * d) d)) with (tab d (fun j => normal (k * d + j)%nat)).
    - apply rdot_tab.
    - unfold tab. rewrite (map_seq_add normal (k * d)%nat d 0%nat), Nat.add_0_r. reflexivity. }
  rewrite !E. reflexivity.
Qed.

(** The linear policy plays the average of the context. *)
Theorem C110_linear_policy : forall d (x : nat -> R), (0 < d)%nat ->
  linear_policy_cont (tab d x) = sumn d x / INR d /\ (forall b, (forall k, (k < d)%nat -> x k = b) -> linear_policy_cont (tab d x) = b) /\
  forall lo hi, (forall k, (k < d)%nat -> lo <= x k <= hi) -> lo <= linear_policy_cont (tab d x) <= hi.
Proof.
  intros d x Hd. assert (E : linear_policy_cont (tab d x) = sumn d x / INR d).
  { unfold linear_policy_cont, rmean. rewrite tab_length. f_equal. apply Rsum_tab. }
  assert (P : 0 < INR d) by (apply lt_0_INR; auto). assert (B : forall lo hi, (forall k, (k < d)%nat -> lo <= x k <= hi) -> lo <= linear_policy_cont (tab d x) <= hi).
  { intros lo hi H. rewrite E. split.
    - apply (Rmult_le_reg_r (INR d)); auto. replace (sumn d x / INR d * INR d) with (sumn d x) by (field; lra).
      rewrite Rmult_comm, <- (sumn_const d lo). apply sumn_le. intros k Hk. apply H; auto.
    - apply (Rmult_le_reg_r (INR d)); auto. replace (sumn d x / INR d * INR d) with (sumn d x) by (field; lra).
      rewrite (Rmult_comm hi), <- (sumn_const d hi). apply sumn_le. intros k Hk. apply H; auto. }
  split; auto. split; auto. intros b Hb. destruct (B b b); [|lra]. intros k Hk. rewrite Hb by auto. lra.
Qed.

(** The threshold policy plays 0, 1 or 2; the "sign" policy plays the sine of the mean context. *)
Theorem C110_threshold : forall x,
  threshold_policy_cont x = (if Rlt_dec (rmean x) (3 / 2) then 0 else if Rlt_dec (3 / 2) (rmean x) then 2 else 1).
Proof.
  intros x. unfold threshold_policy_cont, rsign, Rltb.
  destruct (Rlt_dec 0 (rmean x - 3 / 2)), (Rlt_dec (rmean x - 3 / 2) 0), (Rlt_dec (rmean x) (3 / 2)), (Rlt_dec (3 / 2) (rmean x)); lra.
Qed.
Theorem C110_sign_policy : forall x, 0 < rmean x < PI / 2 -> 0 < sign_policy_cont x < 1 /\ sign_policy_cont x <> rsign (rmean x).
Proof.
  intros x H. assert (B : 0 < sign_policy_cont x < 1).
  { unfold sign_policy_cont. pose proof PI_RGT_0. split; [apply sin_gt_0; lra|]. rewrite <- sin_PI2. apply sin_increasing_1; lra. }
  split; auto. unfold rsign. rewrite (proj2 (Rltb_true 0 (rmean x))) by lra. lra.
Qed.

(** ** Concrete cases *)
Example C109_example : forall u noise,
  (forall i, 0 <= u i < 1) ->
  cont_ds_init 1 (Fin 1) (Fin 0) (Fin 0) (Fin 2) (Some 7%nat) = Ok tt /\
  exists act, cont_obtain (fun _ _ m _ _ => m) (fun _ _ _ _ _ => 0) (Fin 0) (Fin 2) 1 (Some (fun _ l => map contextfree_reward l)) None 3 [[0]; [1]; [2]] u noise =
    Ok {| cb_n := 3; cb_context := [[0]; [1]; [2]]; cb_action := tabF 3 act;
          cb_reward := tab 3 (fun i => nadd (nth i (map contextfree_reward (tabF 3 act)) NaN) (Fin (noise i))); cb_pscore := tab 3 (fun _ => Fin (1 / (2 - 0)));
          cb_expected := map contextfree_reward (tabF 3 act) |}.
Proof.
  intros u noise Hu. split; [apply C109_init; repeat split; try lia; try lra; discriminate|].
  destruct (C109_uniform (fun _ _ m _ _ => m) (fun _ _ _ _ _ => 0) 0 2 1 (fun _ l => map contextfree_reward l) 3 [[0]; [1]; [2]] u noise) as (act & _ & E); auto.
  { lra. } { intros act Ha. rewrite map_length. auto. }
  exists act. exact E.
Qed.
Example C109_default_bounds : nlt NInf PInf = true /\ (forall a b, ~ finite_bounds NInf PInf a b).
Proof. split; [reflexivity|]. intros a b (H & _). discriminate. Qed.
Example C110_example : exists x y, x <> y /\ sign_policy_cont x <> rsign (rmean x) /\
  linear_reward_cont (fun _ => 1) (fun _ => 1 / 2) x (linear_behavior_cont (fun _ => 1) (fun _ => 1 / 2) x) =
  linear_reward_cont (fun _ => 1) (fun _ => 1 / 2) y (linear_behavior_cont (fun _ => 1) (fun _ => 1 / 2) y).
Proof.
  exists [1], [5]. split; [intros [= E]; lra|]. split.
  - apply C110_sign_policy. unfold rmean. cbn. pose proof PI2_1. lra.
  - rewrite !C110_shared_coefficients by lra. reflexivity.
Qed.

Print Assumptions C109_init.
Print Assumptions C109_uniform.
Print Assumptions C109_infinite_bounds.
Print Assumptions C109_behaviour.
Print Assumptions C109_no_rounds.
Print Assumptions C109_default_reward.
Print Assumptions C109_default_reward_infinite.
Print Assumptions C109_ground_truth.
Print Assumptions C109_on_policy.
Print Assumptions C109_ground_truth_rejects.
Print Assumptions C110_shared_coefficients.
Print Assumptions C110_deviation.
Print Assumptions C110_linear_minimum.
Print Assumptions C110_quadratic.
Print Assumptions C110_threshold.
Print Assumptions C110_sign_policy.
Print Assumptions C110_linear_policy.
