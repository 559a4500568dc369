(** * P_Utils: properties C01-C09 (obp/utils.py). *)

From Coq Require Import Reals List ZArith Bool Lia Lra Permutation.
From Verif Require Import Num NpList M_Utils M_Estimators S_Base S_Estimators S_Examples
  L_Num L_Base L_Estimators L_EstProps L_Examples L_Utils.
Import ListNotations.
Open Scope R_scope.

(** ** C01: sigmoid.  "Only non-positive arguments are exponentiated" is stated by replacing exp by
    any function that agrees with it on the non-positive reals (so it may overflow elsewhere). *)

Theorem C01_sigmoid_value : forall x, sigmoid x = 1 / (1 + exp (- x)).
Proof. intros x. apply sigmoid_with_ok. auto. Qed.

Theorem C01_sigmoid_no_overflow : forall ex x,
  (forall y, y <= 0 -> ex y = exp y) -> sigmoid_with ex x = sigmoid x.
Proof. intros ex x H. rewrite C01_sigmoid_value. apply sigmoid_with_ok; auto. Qed.

Theorem C01_sigmoid_shape :
  (forall x, 0 < sigmoid x < 1) /\
  (forall x y, x < y -> sigmoid x < sigmoid y) /\
  (forall x, sigmoid (- x) = 1 - sigmoid x).
Proof.
  repeat split; intros; rewrite ?C01_sigmoid_value.
  - pose proof (exp_pos (- x)). apply Rdiv_lt_0_compat; lra.
  - pose proof (exp_pos (- x)). apply (Rmult_lt_reg_r (1 + exp (- x))); [lra|].
    unfold Rdiv. rewrite Rmult_assoc, Rinv_l; lra.
  - pose proof (exp_pos (- x)). pose proof (exp_pos (- y)).
    assert (exp (- y) < exp (- x)) by (apply exp_increasing; lra).
    unfold Rdiv. apply Rmult_lt_compat_l; [lra|]. apply Rinv_lt_contravar; [|lra].
    apply Rmult_lt_0_compat; lra.
  - rewrite Ropp_involutive. pose proof (exp_pos x). rewrite exp_Ropp. field. split; lra.
Qed.

(* An [ex] that differs from exp on every positive argument meets the hypothesis of no_overflow. *)
Example C01_example : let ex y := if Rle_dec y 0 then exp y else 0 in
  (forall y, y <= 0 -> ex y = exp y) /\ ex 1 <> exp 1.
Proof.
  split; intros; simpl.
  - destruct (Rle_dec y 0); [reflexivity|lra].
  - destruct (Rle_dec 1 0); [lra|]. pose proof (exp_pos 1). lra.
Qed.

(** ** C02: softmax *)

Theorem C02_softmax_rows : forall n K (x : nat -> nat -> R), (0 < K)%nat ->
  exists s : nat -> nat -> R,
    softmax (tab n (fun i => tab K (x i))) = tab n (fun i => tab K (s i)) /\
    (forall i a, (a < K)%nat -> s i a = exp (x i a) / sumn K (fun b => exp (x i b))) /\
    (forall i a, (a < K)%nat -> 0 < s i a) /\
    (forall i, sumn K (s i) = 1) /\
    (forall i a b, (a < K)%nat -> (b < K)%nat -> (x i a < x i b <-> s i a < s i b)).
Proof.
  intros n K x HK.
  exists (fun i a => exp (x i a) / sumn K (fun b => exp (x i b))).
  assert (Hne : forall i, tab K (x i) <> []).
  { intros i E. apply (f_equal (@length R)) in E. rewrite tab_length in E. simpl in E. lia. }
  assert (Hs : forall i, softmax_row (tab K (x i)) = tab K (fun a => exp (x i a) / sumn K (fun b => exp (x i b)))).
  { intros i. apply (nth_ext _ _ 0 0).
    - rewrite softmax_row_length, !tab_length. reflexivity.
    - intros a Ha. rewrite softmax_row_length, tab_length in Ha.
      rewrite softmax_row_nth by (rewrite tab_length; auto).
      rewrite !nth_tab, map_tab, Rsum_tab by auto. reflexivity. }
  assert (Hpos : forall i, 0 < sumn K (fun b => exp (x i b))).
  { intros i. rewrite <- (Rsum_tab K (fun b => exp (x i b))), <- (map_tab K (x i) exp). apply expsum_pos, Hne. }
  split; [unfold softmax; rewrite map_tab; apply tab_ext; auto|].
  split; [auto|]. split.
  { intros i a Ha. apply Rdiv_lt_0_compat; [apply exp_pos|apply Hpos]. }
  split.
  { intros i. rewrite <- (Rsum_tab K), <- Hs. apply softmax_row_sum, Hne. }
  intros i a b Ha Hb. pose proof (softmax_row_order (tab K (x i)) a b) as H.
  rewrite !tab_length in H. specialize (H Ha Hb). rewrite Hs in H. rewrite !nth_tab in H by auto. exact H.
Qed.

Theorem C02_softmax_shift : forall n K (x : nat -> nat -> R) (c : nat -> R),
  softmax (tab n (fun i => tab K (fun a => x i a + c i))) = softmax (tab n (fun i => tab K (x i))).
Proof.
  intros n K x c. unfold softmax. rewrite !map_tab. apply tab_ext. intros i Hi.
  rewrite <- (softmax_row_shift (c i) (tab K (x i))), map_tab. reflexivity.
Qed.

Theorem C02_softmax_no_overflow : forall ex (row : list R),
  (forall y, y <= 0 -> ex y = exp y) -> softmax_row_with ex row = softmax_row row.
Proof. intros ex row H. apply softmax_row_with_ext; auto. Qed.

Example C02_example : (0 < 3)%nat /\ 1 < 1000. Proof. split; [lia|lra]. Qed.

(** ** C03: the fast sampler is the inverse CDF *)

Lemma Rsum_firstn_tab K p a : (a <= K)%nat -> Rsum (firstn a (tab K p)) = sumn a p.
Proof.
  intros H. rewrite <- Rsum_tab. f_equal. apply (nth_ext _ _ 0 0).
  - rewrite firstn_length, !tab_length. lia.
  - intros i Hi. rewrite firstn_length, tab_length in Hi.
    assert (Hi' : (i < a)%nat) by lia.
    rewrite nth_tab by lia. revert i Hi' Hi. revert K p H. induction a; intros; [lia|].
    destruct K; [lia|]. rewrite tab_S_first. simpl. destruct i; [reflexivity|].
    specialize (IHa K (fun j => p (S j)) ltac:(lia) i ltac:(lia)). rewrite IHa; [reflexivity|].
    lia.
Qed.

Theorem C03_inverse_cdf : forall n K (p : nat -> nat -> R) (u : nat -> R),
  (forall i a, (i < n)%nat -> (a < K)%nat -> 0 <= p i a) ->
  (forall i, (i < n)%nat -> sumn K (p i) = 1) ->
  (forall i, (i < n)%nat -> 0 <= u i < 1) ->
  exists act : nat -> nat,
    sample_action_fast (tab n (fun i => tab K (p i))) (tab n u) = tab n act /\
    (forall i, (i < n)%nat ->
       (act i < K)%nat /\ sumn (act i) (p i) <= u i < sumn (S (act i)) (p i) /\ 0 < p i (act i)) /\
    (forall i a, (i < n)%nat -> (a < K)%nat ->
       (act i = a <-> sumn a (p i) <= u i < sumn a (p i) + p i a)).
Proof.
  intros n K p u Hp Hs Hu.
  exists (fun i => sample_action_row (tab K (p i)) (u i)).
  assert (Hnn : forall i, (i < n)%nat -> forall v, In v (tab K (p i)) -> 0 <= v).
  { intros i Hi v Hv. apply In_tab in Hv as (a & Ha & <-). auto. }
  assert (Hsp : forall i, (i < n)%nat -> let a := sample_action_row (tab K (p i)) (u i) in
     (a < K)%nat /\ sumn a (p i) <= u i < sumn (S a) (p i) /\ 0 < p i a).
  { intros i Hi a. pose proof (sample_row_spec (tab K (p i)) (u i) (Hnn i Hi)) as H.
    rewrite Rsum_tab, Hs in H by auto. specialize (H (Hu i Hi)). cbv zeta in H. fold a in H.
    rewrite tab_length in H. destruct H as (H1 & H2 & H3).
    rewrite !Rsum_firstn_tab in H2 by lia. rewrite nth_tab in H3 by auto. auto. }
  split; [|split].
  - apply (nth_ext _ _ 0%nat 0%nat).
    + unfold sample_action_fast. rewrite map_length, combine_length, !tab_length. lia.
    + unfold sample_action_fast. rewrite map_length, combine_length, !tab_length. intros i Hi.
      fold (sample_action_fast (tab n (fun i => tab K (p i))) (tab n u)).
      rewrite sample_fast_nth by (rewrite !tab_length; lia). rewrite !nth_tab by lia. reflexivity.
  - exact Hsp.
  - intros i a Hi Ha. split.
    + intros <-. apply Hsp; auto.
    + intros H. apply sample_row_char.
      * apply Hnn; auto.
      * apply Hu; auto.
      * rewrite tab_length; auto.
      * rewrite !Rsum_firstn_tab by lia. exact H.
Qed.

Example C03_example : let p := fun i a => nth a [1/2; 0; 1/2] 0 in let u := fun _ : nat => 3/4 in
  (forall i a, (i < 2)%nat -> (a < 3)%nat -> 0 <= p i a) /\
  (forall i : nat, (i < 2)%nat -> sumn 3 (p i) = 1) /\ (forall i, (i < 2)%nat -> 0 <= u i < 1).
Proof.
  repeat split; intros; simpl; try lra. idx a; simpl; lra.
Qed.

(** ** C04: missing mass goes to action 0 *)

Theorem C04_missing_mass_goes_to_action_0 : forall K (p : nat -> R) u,
  (forall a, (a < K)%nat -> sumn (S a) p <= u) ->
  sample_action_fast [tab K p] [u] = [0%nat].
Proof.
  intros K p u H. unfold sample_action_fast. simpl. rewrite sample_row_none; [reflexivity|].
  intros i Hi. rewrite tab_length in Hi. rewrite Rsum_firstn_tab by lia. auto.
Qed.

(** The validator of the library accepts rows for which this happens although action 0 has
    probability zero: an impossible action is then sampled. *)
Theorem C04_impossible_action_from_accepted_row : forall d u, 0 < d <= 1 / 100000 -> 1 - d <= u < 1 ->
  let p := fun a => nth a [0; 1 - d] 0 in
  check_ope_inputs [map (fun v => [Fin v]) (tab 2 p)] None None None None None None = Ok tt /\
  sample_action_fast [tab 2 p] [u] = [0%nat] /\ p 0%nat = 0.
Proof.
  intros d u Hd Hu p. split; [|split; [|reflexivity]].
  - change [map (fun v => [Fin v]) (tab 2 p)] with (tab3F 1 2 1 (fun _ a _ => p a)).
    unfold check_ope_inputs. rewrite sum_axis1_tab by lia. cbn.
    replace (Rleb _ _) with true; [reflexivity|].
    symmetry. apply Rleb_true. replace (_ - 1) with (- d) by ring. rewrite Rabs_Ropp, Rabs_right; lra.
  - apply C04_missing_mass_goes_to_action_0. intros a Ha. unfold p. idx a; simpl; lra || lia.
Qed.

Example C04_example : 0 < 1/200000 <= 1/100000 /\ 1 - 1/200000 <= 999999/1000000 < 1.
Proof. lra. Qed.

(** ** C05: bootstrap confidence intervals *)

Lemma bs_ne n x B choice : (1 <= B)%Z -> tab (Z.to_nat B) (boot_mean n x choice) <> [].
Proof. intros HB E. apply (f_equal (@length R)) in E. rewrite tab_length in E. simpl in E. lia. Qed.


Theorem C05_interval : forall n x alpha B choice lo hi, (0 < n)%nat ->
  (forall b j, (j < n)%nat -> (choice b j < n)%nat) -> 0 <= alpha <= 1 -> (1 <= B)%Z ->
  bounded_by n x lo hi ->
  exists m l u,
    estimate_confidence_interval_by_bootstrap (tabF n x) alpha B choice
      = Ok {| ci_mean := Fin m; ci_lower := Fin l; ci_upper := Fin u |} /\
    m = avg (Z.to_nat B) (fun b => avg n (fun j => x (choice b j))) /\
    l <= u /\ lo <= l /\ u <= hi /\ lo <= m <= hi.
Proof.
  intros n x alpha B choice lo hi Hn Hc Ha HB Hb. rewrite bootstrap_ok by auto.
  do 3 eexists. split; [reflexivity|]. split; [reflexivity|].
  pose proof (bs_ne n x B choice HB) as Hne. cbv zeta.
  assert (HI : forall y, In y (tab (Z.to_nat B) (boot_mean n x choice)) -> lo <= y <= hi).
  { intros y Hy. apply In_tab in Hy as (b & _ & <-). apply boot_mean_bounds; auto. }
  split; [apply quantile_mono; auto; lra|].
  split; [apply (quantile_bounds _ Hne _ lo hi); auto; lra|].
  split; [apply (quantile_bounds _ Hne _ lo hi); auto; lra|].
  apply avg_bounds; [lia|]. intros b Hbb. apply boot_mean_bounds; auto.
Qed.

(** The bounds are the alpha/2 and 1-alpha/2 linear-interpolation percentiles: for [s] the sorted
    sequence of replicate means, they interpolate s at index q*(B-1). *)
Definition interpolates (m : nat) (s : nat -> R) (q v : R) : Prop :=
  exists k t, (k < m)%nat /\ 0 <= t < 1 /\ q * (INR m - 1) = INR k + t /\
              v = s k + t * (s (Nat.min (S k) (m - 1)) - s k).

Theorem C05_percentiles : forall n x alpha B choice s, (0 < n)%nat ->
  (forall b j, (j < n)%nat -> (choice b j < n)%nat) -> 0 <= alpha <= 1 -> (1 <= B)%Z ->
  let m := Z.to_nat B in
  Permutation (tab m s) (tab m (fun b => avg n (fun j => x (choice b j)))) ->
  (forall i j, (i <= j < m)%nat -> s i <= s j) ->
  exists mu l u,
    estimate_confidence_interval_by_bootstrap (tabF n x) alpha B choice
      = Ok {| ci_mean := Fin mu; ci_lower := Fin l; ci_upper := Fin u |} /\
    interpolates m s (alpha / 2) l /\ interpolates m s (1 - alpha / 2) u.
Proof.
  intros n x alpha B choice s Hn Hc Ha HB m HP Hs. rewrite bootstrap_ok by auto.
  do 3 eexists. split; [reflexivity|]. fold m.
  assert (Hm : (0 < m)%nat) by lia.
  change (fun b => avg n (fun j => x (choice b j))) with (boot_mean n x choice) in HP.
  assert (E : rsort (tab m (boot_mean n x choice)) = tab m s).
  { apply rsorted_unique; [apply rsort_sorted| |].
    - apply rsorted_tab. exact Hs.
    - etransitivity; [apply rsort_perm|]. symmetry. exact HP. }
  assert (Hq : forall q, 0 <= q <= 1 -> interpolates m s q (quantile (tab m (boot_mean n x choice)) q)).
  { intros q Hq. unfold quantile. rewrite E, tab_length. set (h := q * INR (m - 1)).
    assert (Hh : 0 <= h <= INR (m - 1)) by (pose proof (pos_INR (m - 1)); unfold h; split; nra).
    pose proof (Int_part_spec h). pose proof (Int_part_nonneg h ltac:(lra)) as H0.
    assert (Hle : (Z.to_nat (Int_part h) <= m - 1)%nat).
    { apply INR_le. rewrite (INR_IZR_INZ (Z.to_nat (Int_part h))), Z2Nat.id by auto. lra. }
    exists (Z.to_nat (Int_part h)), (frac_part h).
    split; [lia|]. unfold frac_part. split; [lra|]. split.
    - rewrite (INR_IZR_INZ (Z.to_nat (Int_part h))), Z2Nat.id by auto. unfold h. rewrite minus_INR by lia. simpl. ring.
    - rewrite !nth_tab by lia. ring. }
  split; apply Hq; lra.
Qed.

Theorem C05_nested : forall n x a1 a2 B choice, (0 < n)%nat ->
  (forall b j, (j < n)%nat -> (choice b j < n)%nat) -> 0 <= a1 -> a1 <= a2 -> a2 <= 1 -> (1 <= B)%Z ->
  exists m l1 u1 l2 u2,
    estimate_confidence_interval_by_bootstrap (tabF n x) a1 B choice
      = Ok {| ci_mean := Fin m; ci_lower := Fin l1; ci_upper := Fin u1 |} /\
    estimate_confidence_interval_by_bootstrap (tabF n x) a2 B choice
      = Ok {| ci_mean := Fin m; ci_lower := Fin l2; ci_upper := Fin u2 |} /\
    l1 <= l2 /\ u2 <= u1.
Proof.
  intros n x a1 a2 B choice Hn Hc H1 H2 H3 HB. rewrite !bootstrap_ok by (auto; lra).
  do 5 eexists. split; [reflexivity|]. split; [reflexivity|].
  pose proof (bs_ne n x B choice HB) as Hne.
  split; apply quantile_mono; auto; lra.
Qed.

Theorem C05_rejects : forall samples alpha B choice,
  (alpha < 0 \/ 1 < alpha \/ (B < 1)%Z) ->
  estimate_confidence_interval_by_bootstrap samples alpha B choice = Err ValueError.
Proof.
  intros samples alpha B choice H.
  unfold estimate_confidence_interval_by_bootstrap, check_confidence_interval_arguments,
    check_scalar, check_scalar_Z. simpl.
  destruct (Rltb alpha 0) eqn:E1; [reflexivity|]. simpl.
  destruct (Rltb 1 alpha) eqn:E2; [reflexivity|]. simpl.
  apply Rltb_false in E1. apply Rltb_false in E2.
  destruct (Z.ltb_spec B 1); [reflexivity|]. exfalso. destruct H as [H|[H|H]]; lra || lia.
Qed.

Example C05_example :
  (0 < 3)%nat /\ (forall b j, (j < 3)%nat -> ((b + j) mod 3 < 3)%nat) /\ 0 <= 1/20 <= 1 /\
  bounded_by 3 (fun i => INR i) 0 2.
Proof.
  repeat split; try lra; intros; try (apply Nat.mod_upper_bound; lia); try lia; idx i; simpl; lra || lia.
Qed.

(** ** C06: equivariance of the interval *)

Theorem C06_equivariant : forall n x alpha B choice c d, (0 < n)%nat ->
  (forall b j, (j < n)%nat -> (choice b j < n)%nat) -> 0 <= alpha <= 1 -> (1 <= B)%Z -> 0 <= c ->
  exists m l u,
    estimate_confidence_interval_by_bootstrap (tabF n x) alpha B choice
      = Ok {| ci_mean := Fin m; ci_lower := Fin l; ci_upper := Fin u |} /\
    estimate_confidence_interval_by_bootstrap (tabF n (fun i => c * x i + d)) alpha B choice
      = Ok {| ci_mean := Fin (c * m + d); ci_lower := Fin (c * l + d); ci_upper := Fin (c * u + d) |}.
Proof.
  intros n x alpha B choice c d Hn Hch Ha HB Hc0. rewrite !bootstrap_ok by auto.
  do 3 eexists. split; [reflexivity|]. cbv zeta.
  pose proof (bs_ne n x B choice HB) as Hne.
  assert (E : tab (Z.to_nat B) (boot_mean n (fun i => c * x i + d) choice)
              = map (fun y => c * y + d) (tab (Z.to_nat B) (boot_mean n x choice))).
  { rewrite map_tab. apply tab_ext. intros b Hb. apply boot_mean_affine; auto. }
  rewrite E, !quantile_affine by (auto; lra). do 3 f_equal.
  unfold avg. assert (0 < INR (Z.to_nat B)) by (apply lt_0_INR; lia).
  rewrite (sumn_ext _ _ (fun b => c * boot_mean n x choice b + d)).
  2:{ intros b Hb. apply boot_mean_affine; auto. }
  rewrite sumn_plus, sumn_scal, sumn_const. field. lra.
Qed.

Example C06_example : (0 < 2)%nat /\ 0 <= 3. Proof. split; [lia|lra]. Qed.

(** ** C07: convert_to_action_dist *)

Theorem C07_one_hot : forall n K L (sel : nat -> nat -> nat),
  (forall i s, (i < n)%nat -> (s < L)%nat -> (sel i s < K)%nat) ->
  exists d : nat -> nat -> nat -> R,
    convert_to_action_dist K L (tab n (fun i => tabZ L (sel i))) = Ok (tab3F n K L d) /\
    (forall i a s, d i a s = if Nat.eqb a (sel i s) then 1 else 0) /\
    (forall i s, (i < n)%nat -> (s < L)%nat -> sumn K (fun a => d i a s) = 1).
Proof.
  intros n K L sel H. exists (fun i a s => if Nat.eqb a (sel i s) then 1 else 0).
  split; [apply convert_ok; auto|]. split; [auto|].
  intros i s Hi Hs. 
  rewrite (sumn_term _ _ (sel i s)).
  - rewrite Nat.eqb_refl. reflexivity.
  - auto.
  - intros a Ha Hne. apply Nat.eqb_neq in Hne. rewrite Hne. reflexivity.
Qed.

Example C07_example : let sel := fun i s => nth s [0; 2]%nat 0%nat in
  forall i s, (i < 2)%nat -> (s < 2)%nat -> (sel i s < 3)%nat.
Proof. intros sel i s Hi Hs. unfold sel. idx s; simpl; lia. Qed.

(** ** C08: soundness and completeness of the validator *)

Theorem C08_check_sound : forall n K L (pi : nat -> nat -> nat -> num) position action reward pscore q_hat eiw,
  (0 < n)%nat -> (0 < K)%nat ->
  check_ope_inputs (tab3 n K L pi) position action reward pscore q_hat eiw = Ok tt ->
  (forall i s, (i < n)%nat -> (s < L)%nat ->
     exists v, nsum (tab K (fun a => pi i a s)) = Fin v /\ Rabs (v - 1) <= 1 / 100000 + 1 / 100000000) /\
  (forall p, position = Some p ->
     length p = n /\ forall z, In z p -> (0 <= z < Z.of_nat L)%Z) /\
  ((1 < L)%nat -> position <> None) /\
  (forall a, action = Some a ->
     exists r, reward = Some r /\ length r = length a /\ a <> [] /\
               forall z, In z a -> (0 <= z < Z.of_nat K)%Z) /\
  (action = None -> reward = None) /\
  (forall p, pscore = Some p ->
     exists a, action = Some a /\ length p = length a /\ forall x, In x p -> nle x (Fin 0) = false) /\
  (forall q, q_hat = Some q -> shape3 q = (n, K, L)) /\
  (forall w, eiw = Some w ->
     exists a, action = Some a /\ length w = length a /\ forall x, In x w -> nlt x (Fin 0) = false).
Proof.
  intros n K L pi position action reward pscore q_hat eiw Hn HK H.
  destruct (check_sound n K L pi position action reward pscore q_hat eiw Hn HK H) as [H1 H2].
  split; [|exact H2]. intros i s Hi Hs. destruct (H1 i s Hi Hs) as (v & E & Hv). exists v. split; auto.
  unfold tol in Hv. lra.
Qed.

(** Conversely every log satisfying the documented contract is accepted (with or without a
    reward model), so the previous theorem is not vacuous. *)
Theorem C08_check_complete : forall l arg, accepted l -> position_arg l arg ->
  check_ope_inputs (policy l) arg (Some (actions l)) (Some (rewards l))
    (Some (pscores l)) (Some (model l)) None = Ok tt /\
  check_ope_inputs (policy l) arg (Some (actions l)) (Some (rewards l))
    (Some (pscores l)) None None = Ok tt.
Proof. intros l arg H Harg. split; apply check_ok; auto. Qed.

Example C08_example : accepted ex_log /\ position_arg ex_log (Some (positions ex_log)).
Proof. split; [apply ex_log_accepted|left; reflexivity]. Qed.

(** ** C09: what the validator lets through *)

(** A "policy" that puts -c on one action and 1+c on the other is accepted for every c, and IPW
    then returns r*(1+c)/p on a log with constant reward r and propensity p. *)
Theorem C09_accepts_negative_probabilities : forall n c r p, (0 < n)%nat -> 0 < p ->
  let l := {| lg_n := n; lg_K := 2; lg_L := 1; lg_r := fun _ => r; lg_a := fun _ => 1%nat;
              lg_pos := fun _ => 0%nat; lg_p := fun _ => p;
              lg_pi := fun _ a _ => nth a [- c; 1 + c] 0; lg_q := fun _ _ _ => 0 |} in
  check_ope_inputs (policy l) None (Some (actions l)) (Some (rewards l)) (Some (pscores l)) None None = Ok tt /\
  ipw_value PInf false (rewards l) (actions l) (policy l) (Some (pscores l)) None None
    = Ok (Fin (r * ((1 + c) / p))).
Proof.
  intros n c r p Hn Hp l.
  assert (H : accepted l).
  { constructor; simpl; intros; auto; try lia.
    replace (0 + - c + (1 + c) - 1) with 0 by ring. rewrite Rabs_R0. unfold tol. lra. }
  assert (Ha : position_arg l None) by (right; auto).
  split; [apply check_ok; auto|].
  transitivity (Ok (Fin (spec_ipw None l))); [exact (ipw_value_ok None false l None (Some (pscores l)) None H Ha eq_refl)|].
  do 2 f_equal. unfold spec_ipw. simpl. unfold weight. simpl. apply avg_const; auto.
Qed.

(** A NaN among the propensities is accepted and makes the estimate NaN. *)
Theorem C09_accepts_nan_pscore : forall l arg k, accepted l -> position_arg l arg -> (k < lg_n l)%nat ->
  let ps : arr1 := tab (lg_n l) (fun i => if Nat.eqb i k then NaN else Fin (lg_p l i)) in
  check_ope_inputs (policy l) arg (Some (actions l)) (Some (rewards l)) (Some ps) None None = Ok tt /\
  ipw_value PInf false (rewards l) (actions l) (policy l) (Some ps) arg None = Ok NaN.
Proof.
  intros l arg k H Harg Hk ps.
  assert (HC : check_ope_inputs (policy l) arg (Some (actions l)) (Some (rewards l)) (Some ps) None None = Ok tt).
  { apply check_ok_ps; auto.
    - apply tab_length.
    - apply existsb_tab_false. intros i Hi. destruct (Nat.eqb i k); [reflexivity|].
      simpl. apply Rleb_false. apply (acc_p l H); auto. }
  split; [exact HC|].
  unfold ipw_value, ipw_like_value, ipw_like_rounds. cbn [choose_pscore bind]. rewrite HC. cbn [bind].
  rewrite default_position_ok by auto. unfold ipw_round.
  unfold ps. rewrite weights_num by auto. cbn [bind]. rewrite map_tab.
  unfold rewards, tabF. rewrite bcast2_tab. cbn [bind]. f_equal.
  apply nmean_NaN. apply In_tab. exists k. split; auto. rewrite Nat.eqb_refl, ndiv_NaN_r. reflexivity.
Qed.

(** An infinite reward is accepted as well: IPW then gives +inf when that round's action is possible under the
    evaluated policy, and NaN when it is not ([inf * 0]), although the round should not count at all. *)
Theorem C09_accepts_infinite_reward : forall l arg k, accepted l -> position_arg l arg -> (k < lg_n l)%nat ->
  let r : arr1 := tab (lg_n l) (fun i => if Nat.eqb i k then PInf else Fin (lg_r l i)) in
  check_ope_inputs (policy l) arg (Some (actions l)) (Some r) (Some (pscores l)) None None = Ok tt /\
  (0 < lg_pi l k (lg_a l k) (lg_pos l k) -> ipw_value PInf false r (actions l) (policy l) (Some (pscores l)) arg None = Ok PInf) /\
  (lg_pi l k (lg_a l k) (lg_pos l k) = 0 -> ipw_value PInf false r (actions l) (policy l) (Some (pscores l)) arg None = Ok NaN).
Proof.
  intros l arg k H Harg Hk r.
  assert (HC : check_ope_inputs (policy l) arg (Some (actions l)) (Some r) (Some (pscores l)) None None = Ok tt).
  { rewrite <- (check_ok l arg (Some (pscores l)) None H Harg (or_intror eq_refl) (or_introl eq_refl)). unfold check_ope_inputs.
    unfold rewards, tabF, r. rewrite !tab_length. reflexivity. }
  assert (E : ipw_value PInf false r (actions l) (policy l) (Some (pscores l)) arg None =
    Ok (nmean (tab (lg_n l) (fun i => nmul (if Nat.eqb i k then PInf else Fin (lg_r l i)) (Fin (weight l i)))))).
  { unfold ipw_value, ipw_like_value, ipw_like_rounds. cbn [choose_pscore bind]. rewrite HC. cbn [bind].
    rewrite default_position_ok by auto. unfold ipw_round. rewrite weights_ok by auto. cbn [bind]. unfold tabF. rewrite map_tab.
    unfold r. rewrite bcast2_tab. cbn [bind]. reflexivity. }
  pose proof (acc_p l H k Hk) as Hp.
  split; [exact HC|]. rewrite E. unfold weight. split; intros Hw; f_equal.
  - assert (W : 0 < lg_pi l k (lg_a l k) (lg_pos l k) / lg_p l k) by (apply Rdiv_lt_0_compat; auto).
    unfold nmean. rewrite tab_length.
    assert (S : forall m f, (forall i, (i < m)%nat -> (exists x, f i = Fin x) \/ f i = PInf) -> (exists i, (i < m)%nat /\ f i = PInf) -> nsum (tab m f) = PInf).
    { induction m as [|m IH]; intros f Hf (i & Hi & Ei); [lia|]. rewrite tab_S_first. cbn [nsum fold_right].
      assert (F : forall m' g, (forall j, (j < m')%nat -> (exists x, g j = Fin x) \/ g j = PInf) ->
                (exists x, nsum (tab m' g) = Fin x) \/ nsum (tab m' g) = PInf).
      { induction m' as [|m' IH']; intros g Hg; [left; exists 0; reflexivity|]. rewrite tab_S_first. cbn [nsum fold_right].
        destruct (IH' (fun j => g (S j))) as [(x & Ex)|Ex]; [intros; apply Hg; lia| |]; unfold nsum in Ex; rewrite Ex;
          destruct (Hg 0%nat) as [(y & ->)| ->]; try lia; cbn; eauto. }
      destruct i as [|i].
      - rewrite Ei. destruct (F m (fun j => f (S j))) as [(x & Ex)|Ex]; [intros; apply Hf; lia| |]; unfold nsum in Ex; rewrite Ex; reflexivity.
      - assert (IH1 : nsum (tab m (fun j => f (S j))) = PInf) by (apply IH; [intros; apply Hf; lia|exists i; split; [lia|auto]]).
        unfold nsum in IH1. rewrite IH1. destruct (Hf 0%nat) as [(y & ->)| ->]; try lia; reflexivity. }
    rewrite S.
    + unfold nnat. cbn [ndiv]. rewrite (proj2 (Rltb_false _ _)) by apply pos_INR. reflexivity.
    + intros i Hi. destruct (Nat.eqb_spec i k) as [->|]; [right|left; eexists; reflexivity]. cbn [nmul]. unfold inf_sign. rewrite (proj2 (Rltb_true _ _)) by auto. reflexivity.
    + exists k. split; auto. rewrite Nat.eqb_refl. cbn [nmul]. unfold inf_sign. rewrite (proj2 (Rltb_true _ _)) by auto. reflexivity.
  - apply nmean_NaN. apply In_tab. exists k. split; auto. rewrite Nat.eqb_refl, Hw. cbn [nmul]. unfold Rdiv. rewrite Rmult_0_l. unfold inf_sign. rewrite (proj2 (Rltb_false _ _)) by lra. reflexivity.
Qed.
Example C09_infinite_ex : accepted ex_det /\ position_arg ex_det None /\
  (exists k, (k < lg_n ex_det)%nat /\ 0 < lg_pi ex_det k (lg_a ex_det k) (lg_pos ex_det k)) /\
  (exists k, (k < lg_n ex_nomass)%nat /\ lg_pi ex_nomass k (lg_a ex_nomass k) (lg_pos ex_nomass k) = 0).
Proof.
  split; [apply ex_det_accepted|]. split; [right; repeat split|]. split; exists 0%nat; split; simpl; try lia; try lra.
Qed.

(** The number of logged rounds is never compared with the number of rounds of [action_dist]:
    with a single position every combination is accepted ... *)
Theorem C09_accepts_length_mismatch : forall l m r a p, accepted l -> lg_L l = 1%nat -> (0 < m)%nat ->
  (forall i, (i < m)%nat -> (a i < lg_K l)%nat) -> (forall i, (i < m)%nat -> 0 < p i) ->
  check_ope_inputs (policy l) None (Some (tabZ m a)) (Some (tabF m r)) (Some (tabF m p)) None None = Ok tt.
Proof.
  intros l m r a p H HL Hm Ha Hp. apply check_mismatch; auto.
  - apply tab_length.
  - apply existsb_tab_false. intros i Hi. simpl. apply Rleb_false. auto.
Qed.

(** ... a one-round log is silently evaluated against round 0 of the policy only ... *)
Theorem C09_one_round_log_is_broadcast : forall l r a p, accepted l -> lg_L l = 1%nat -> (a < lg_K l)%nat -> 0 < p ->
  ipw_value PInf false (tabF 1 (fun _ => r)) (tabZ 1 (fun _ => a)) (policy l)
    (Some (tabF 1 (fun _ => p))) None None
  = Ok (Fin (r * (lg_pi l 0 a 0 / p))).
Proof. exact ipw_one_round. Qed.

(** ... and any other mismatch surfaces only as an IndexError from inside the estimator. *)
Theorem C09_other_mismatch_is_index_error : forall l lam m r a p, accepted l -> lg_L l = 1%nat ->
  (1 < m)%nat -> m <> lg_n l ->
  (forall i, (i < m)%nat -> (a i < lg_K l)%nat) -> (forall i, (i < m)%nat -> 0 < p i) ->
  ipw_value lam false (tabF m r) (tabZ m a) (policy l) (Some (tabF m p)) None None = Err IndexError.
Proof. exact ipw_mismatch_raises. Qed.

Example C09_example : accepted ex_det /\ lg_L ex_det = 1%nat /\ lg_n ex_det = 3%nat /\
  (forall i, (i < 5)%nat -> ((i mod 2)%nat < lg_K ex_det)%nat).
Proof.
  split; [apply ex_det_accepted|]. repeat split. intros i Hi. apply Nat.mod_upper_bound. simpl; lia.
Qed.

Print Assumptions C01_sigmoid_value.
Print Assumptions C01_sigmoid_no_overflow.
Print Assumptions C01_sigmoid_shape.
Print Assumptions C02_softmax_rows.
Print Assumptions C02_softmax_shift.
Print Assumptions C02_softmax_no_overflow.
Print Assumptions C03_inverse_cdf.
Print Assumptions C04_missing_mass_goes_to_action_0.
Print Assumptions C04_impossible_action_from_accepted_row.
Print Assumptions C05_interval.
Print Assumptions C05_percentiles.
Print Assumptions C05_nested.
Print Assumptions C05_rejects.
Print Assumptions C06_equivariant.
Print Assumptions C07_one_hot.
Print Assumptions C08_check_sound.
Print Assumptions C08_check_complete.
Print Assumptions C09_accepts_negative_probabilities.
Print Assumptions C09_accepts_nan_pscore.
Print Assumptions C09_accepts_infinite_reward.
Print Assumptions C09_accepts_length_mismatch.
Print Assumptions C09_one_round_log_is_broadcast.
Print Assumptions C09_other_mismatch_is_index_error.
