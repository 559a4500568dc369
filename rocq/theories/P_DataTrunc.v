(** * P_DataTrunc: continuous synthetic rewards are truncated twice (C107). *)

From Coq Require Import Reals List ZArith Lia Lra Bool.
From Coquelicot Require Import Coquelicot.
From Verif Require Import Num NpList M_Utils M_Data S_Base S_Data L_Num L_Base L_Data P_Data.
Import ListNotations.
Open Scope R_scope.

(** Up to a constant factor, the density of the normal distribution with mean [loc] and standard deviation [s]. *)
Definition gauss (loc s x : R) : R := exp (- ((x - loc) / s) ^ 2 / 2).

(** What scipy documents for [truncnorm.stats(a, b, loc, scale, moments="m")]: the mean of the normal distribution
    restricted to [loc + a scale, loc + b scale]. *)
Definition truncnorm_mean_ok (tn : truncnorm) : Prop := forall a b loc s, 0 < s -> a < b ->
  tn_mean tn a b loc s = RInt (fun x => x * gauss loc s x) (loc + a * s) (loc + b * s) / RInt (gauss loc s) (loc + a * s) (loc + b * s).

Lemma gauss_pos loc s x : 0 < gauss loc s x.
Proof. apply exp_pos. Qed.
Lemma gauss_cont loc s x : continuous (gauss loc s) x.
Proof.
  apply (ex_derive_continuous (gauss loc s)). unfold gauss. auto_derive. auto.
Qed.
Lemma gauss_prim loc s x : s <> 0 -> is_derive (fun x => - s ^ 2 * gauss loc s x) x ((x - loc) * gauss loc s x).
Proof.
  intros Hs. unfold gauss. auto_derive; [auto|]. unfold Rminus, Rdiv. set (E := exp _). field. auto.
Qed.

Lemma gauss_int loc s a b : s <> 0 ->
  is_RInt (fun x => (x - loc) * gauss loc s x) a b (s ^ 2 * (gauss loc s a - gauss loc s b)).
Proof.
  intros Hs. replace (s ^ 2 * (gauss loc s a - gauss loc s b)) with (minus (- s ^ 2 * gauss loc s b) (- s ^ 2 * gauss loc s a)) by (unfold minus, plus, opp; cbn; ring).
  apply (is_RInt_derive (fun x => - s ^ 2 * gauss loc s x)).
  - intros x _. apply gauss_prim. auto.
  - intros x _. apply (continuous_mult (fun x => x - loc) (gauss loc s)); [|apply gauss_cont].
    apply (continuous_minus (fun x => x) (fun _ => loc)); [apply continuous_id|apply continuous_const].
Qed.
Lemma gauss_ex loc s a b : ex_RInt (gauss loc s) a b.
Proof. apply (ex_RInt_continuous (gauss loc s)). intros. apply gauss_cont. Qed.
Lemma gauss_mass loc s a b : a < b -> 0 < RInt (gauss loc s) a b.
Proof. intros H. apply RInt_gt_0; auto. intros. apply gauss_pos. intros. apply gauss_cont. Qed.

Lemma first_moment loc s a b : s <> 0 ->
  RInt (fun x => x * gauss loc s x) a b = s ^ 2 * (gauss loc s a - gauss loc s b) + loc * RInt (gauss loc s) a b.
Proof.
  intros Hs. apply is_RInt_unique.
  apply (is_RInt_ext (fun x => plus ((x - loc) * gauss loc s x) (scal loc (gauss loc s x)))).
  - intros x _. unfold plus, scal; cbn. unfold mult; cbn. ring.
  - apply (is_RInt_plus (V := R_NormedModule)); [apply gauss_int; auto|]. apply (is_RInt_scal (V := R_NormedModule)). apply (RInt_correct (V := R_CompleteNormedModule)). apply gauss_ex.
Qed.

(** Restricting a normal distribution with mean [mu] to [0, B] moves the mean up exactly when [mu] is below B/2. *)
Lemma truncation_shift tn d mu : truncnorm_mean_ok tn -> 0 < ds_std d -> 0 < ds_max d ->
  truncated_mean tn d mu - mu
  = ds_std d ^ 2 * (gauss mu (ds_std d) 0 - gauss mu (ds_std d) (ds_max d)) / RInt (gauss mu (ds_std d)) 0 (ds_max d).
Proof.
  intros Ht Hs HB. unfold truncated_mean. rewrite Ht.
  - replace (mu + (0 - mu) / ds_std d * ds_std d) with 0 by (field; lra). replace (mu + (ds_max d - mu) / ds_std d * ds_std d) with (ds_max d) by (field; lra).
    rewrite first_moment by lra. pose proof (gauss_mass mu (ds_std d) 0 (ds_max d) HB). field. lra.
  - auto.
  - unfold Rdiv. apply Rmult_lt_compat_r; [apply Rinv_0_lt_compat; auto|lra].
Qed.
Lemma truncation_up tn d mu : truncnorm_mean_ok tn -> 0 < ds_std d -> 0 < ds_max d -> mu < ds_max d / 2 -> mu < truncated_mean tn d mu.
Proof.
  intros Ht Hs HB Hm. pose proof (truncation_shift tn d mu Ht Hs HB) as E.
  assert (0 < gauss mu (ds_std d) 0 - gauss mu (ds_std d) (ds_max d)).
  { apply Rlt_Rminus. unfold gauss. apply exp_increasing. assert (H : mu ^ 2 < (ds_max d - mu) ^ 2) by nra.
    replace (((0 - mu) / ds_std d) ^ 2) with (mu ^ 2 * / ds_std d ^ 2) by (field; lra).
    replace (((ds_max d - mu) / ds_std d) ^ 2) with ((ds_max d - mu) ^ 2 * / ds_std d ^ 2) by (field; lra).
    assert (0 < / ds_std d ^ 2) by (apply Rinv_0_lt_compat; nra). nra. }
  assert (0 < ds_std d ^ 2 * (gauss mu (ds_std d) 0 - gauss mu (ds_std d) (ds_max d)) / RInt (gauss mu (ds_std d)) 0 (ds_max d)).
  { apply Rdiv_lt_0_compat; [|apply gauss_mass; auto]. apply Rmult_lt_0_compat; [nra|auto]. }
  lra.
Qed.

(** The reward of every logged round is a draw of the truncated normal distribution located at the reported expected
    reward, whose mean is larger than the reported expected reward. *)
Theorem C107_batch_rewards : forall tn uniform argsort d n context g binom m lg,
  truncnorm_mean_ok tn -> 0 < ds_std d -> 0 < ds_max d -> ds_binary d = false ->
  sorts argsort -> (forall i, 0 <= uniform (ds_seed d) i < 1) -> (ds_deficient d < ds_K d)%nat -> (0 < n)%nat -> length context = n ->
  mean_table d context n m -> logit_table d context n (fun i a => reported tn d (m i a)) lg ->
  exists b (reported_mean : nat -> R), synth_batch tn uniform argsort d (Z.of_nat n) context (tabR2 n (ds_K d) g) binom = Ok b /\
    (forall i, (i < n)%nat -> reported_mean i = nth (nth i (b_action b) 0%nat) (nth i (b_expected b) []) 0) /\
    b_reward b = tab n (fun i => let mu := reported_mean i in
      tn_rvs tn (ds_seed d) ((0 - mu) / ds_std d) ((ds_max d - mu) / ds_std d) mu (ds_std d) i) /\
    (forall i, (i < n)%nat -> reported_mean i = truncated_mean tn d (m i (nth i (b_action b) 0%nat))) /\
    (forall i, (i < n)%nat -> reported_mean i < ds_max d / 2 ->
       let mu := reported_mean i in mu < tn_mean tn ((0 - mu) / ds_std d) ((ds_max d - mu) / ds_std d) mu (ds_std d)).
Proof.
  intros * Ht Hs HB Hb Hso Hu Hd Hn HL Hm Hlg.
  destruct (C58_batch tn uniform argsort d n context g binom m lg Hso Hu Hd Hn HL Hm Hlg) as (pi & act & S & Hlog & _ & _ & Hrun).
  eexists. exists (fun i => reported tn d (m i (act i))). split; [apply Hrun; auto|]. cbn [b_action b_expected b_reward].
  assert (A : forall i, (i < n)%nat -> (act i < ds_K d)%nat) by (intros i Hi; apply (Hlog i Hi)).
  split; [|split; [reflexivity|split]].
  - intros i Hi. unfold tabR2. rewrite !nth_tab by auto. reflexivity.
  - intros i Hi. rewrite nth_tab by auto. unfold reported. rewrite Hb. reflexivity.
  - intros i Hi H. apply (truncation_up tn d _ Ht Hs HB H).
Qed.

(** [sample_reward] on the same contexts and actions draws from the distribution located at the value of the reward
    function, whose mean is the reported expected reward. *)
Theorem C107_sample_reward : forall tn binom d context n m (act : nat -> nat),
  length context = n -> mean_table d context n m -> ds_binary d = false -> (forall i, (i < n)%nat -> (act i < ds_K d)%nat) ->
  exists loc : nat -> R,
    sample_reward tn binom d context (tab n act) = Ok (tab n (fun i => let mu := loc i in
      tn_rvs tn (ds_seed d) ((0 - mu) / ds_std d) ((ds_max d - mu) / ds_std d) mu (ds_std d) i)) /\
    forall i, (i < n)%nat ->
      tn_mean tn ((0 - loc i) / ds_std d) ((ds_max d - loc i) / ds_std d) (loc i) (ds_std d)
      = nth (act i) (nth i (corrected tn d context) []) 0.
Proof.
  intros tn binom d context n m act HL Hm Hb Ha. exists (fun i => m i (act i)). split.
  - unfold sample_reward. rewrite HL, tab_length, Nat.eqb_refl. cbn [negb raise_if bind]. rewrite (mean_table_ok d context n m HL Hm).
    apply (proj1 (sample_given_tab tn binom d n m act Ha)). exact Hb.
  - intros i Hi. rewrite (corrected_tab tn d context n m HL Hm). unfold tabR2. rewrite !nth_tab by auto. unfold reported. rewrite Hb. reflexivity.
Qed.

Example C107_example : exists tn, truncnorm_mean_ok tn /\
  let d := mkSynth 2 1 false None [0; 1] 1 0 0 None 7 (10 ^ 10) in
  0 < ds_std d /\ 0 < ds_max d /\ ds_binary d = false /\ mean_table d (repeat [0] 3) 3 (fun _ a => INR a).
Proof.
  exists (mkTn (fun a b loc s => RInt (fun x => x * gauss loc s x) (loc + a * s) (loc + b * s) / RInt (gauss loc s) (loc + a * s) (loc + b * s)) (fun _ _ _ _ _ _ => 0)).
  split; [intros a b loc s _ _; reflexivity|]. cbn. repeat split; try lra. 
Qed.

Print Assumptions C107_batch_rewards.
Print Assumptions C107_sample_reward.
