(** * P_DataFun: the reward functions and behaviour policies of the synthetic datasets (C108). *)

From Coq Require Import String Reals List ZArith Lia Lra Bool Psatz.
From Verif Require Import Num NpList M_Utils M_Data S_Base S_Data L_Num L_Base L_Utils L_Examples L_Data P_Utils.
Import ListNotations.
Open Scope R_scope.

(** ** Specification *)

(** The bilinear value of action a in round i: context part, action part and interaction; the coefficients may differ
    between rounds. *)
Definition bilinear (dc da : nat) (X A : nat -> nat -> R) (W V : nat -> nat -> R) (M : nat -> nat -> nat -> R) (i a : nat) : R :=
  sumn dc (fun j => X i j * W i j) + sumn da (fun l => V i l * A a l) + sumn da (fun l => sumn dc (fun j => X i j * M i j l) * A a l).

(** The coefficients a coefficient function returns: either shared by all rounds or one set per round. *)
Definition coefs_are (n dc da : nat) (c : coef1 * coef1 * coef2) (W V : nat -> nat -> R) (M : nat -> nat -> nat -> R) : Prop :=
  (exists w v m, c = (One (tab dc w), One (tab da v), One2 (tabR2 dc da m)) /\
     forall i, W i = w /\ V i = v /\ M i = m) \/
  c = (PerRound (tabR2 n dc W), PerRound (tabR2 n da V), PerRound2 (tab n (fun i => tabR2 dc da (M i)))).

(** Mean and standard deviation of all entries of a table. *)
Definition table_mean (n K : nat) (f : nat -> nat -> R) : R := sumn n (fun i => sumn K (f i)) / (INR n * INR K).
Definition table_sd (n K : nat) (f : nat -> nat -> R) : R := sqrt (table_mean n K (fun i a => (f i a - table_mean n K f) ^ 2)).

(** ** Lemmas *)
Lemma tabR2_length n d f : length (tabR2 n d f) = n.
Proof. apply tab_length. Qed.
Lemma rdot_tab d f g : rdot (tab d f) (tab d g) = sumn d (fun j => f j * g j).
Proof. unfold rdot. rewrite combine_tab, map_tab. apply Rsum_tab. Qed.
Lemma vecmat_tab dc da x m : vecmat (tab dc x) (tabR2 dc da m) da = tab da (fun l => sumn dc (fun j => x j * m j l)).
Proof.
  unfold vecmat. apply tab_ext. intros l Hl. unfold tabR2. rewrite map_tab.
  rewrite (tab_ext dc (fun j => nth l (tab da (m j)) 0) (fun j => m j l)) by (intros j Hj; rewrite nth_tab by auto; reflexivity). apply rdot_tab.
Qed.
Lemma Rsum_concat_tab n K f : Rsum (all_values (tabR2 n K f)) = sumn n (fun i => sumn K (f i)).
Proof.
  unfold all_values, tabR2. induction n; [reflexivity|]. rewrite tab_S, concat_app, Rsum_app, IHn. cbn [concat sumn]. rewrite app_nil_r, Rsum_tab. reflexivity.
Qed.
Lemma all_values_length n K f : length (all_values (tabR2 n K f)) = (n * K)%nat.
Proof.
  unfold all_values, tabR2. induction n; [reflexivity|]. rewrite tab_S, concat_app, app_length, IHn. cbn [concat]. rewrite app_nil_r, tab_length. lia.
Qed.
Lemma all_values_map n K f h : map h (all_values (tabR2 n K f)) = all_values (tabR2 n K (fun i a => h (f i a))).
Proof.
  unfold all_values. rewrite concat_map. f_equal. unfold tabR2. rewrite map_tab. apply tab_ext. intros. rewrite map_tab. reflexivity.
Qed.
Lemma rmean_tab n K f : rmean (all_values (tabR2 n K f)) = table_mean n K f.
Proof. unfold rmean, table_mean. rewrite Rsum_concat_tab, all_values_length, mult_INR. reflexivity. Qed.
Lemma rstd_tab n K f : rstd (all_values (tabR2 n K f)) = table_sd n K f.
Proof. unfold rstd, table_sd. rewrite all_values_map, rmean_tab, rmean_tab. reflexivity. Qed.

Lemma finish_tab z dg n K f : finish_reward z dg (tabR2 n K f) =
  tab n (fun i => tab K (fun a => nmul (nnat dg) (nsub (Fin (f i a)) (if z then ndiv (Fin (table_mean n K f)) (Fin (table_sd n K f)) else Fin 0)))).
Proof.
  unfold finish_reward. rewrite rmean_tab, rstd_tab. unfold tabR2. rewrite map_tab. apply tab_ext. intros. rewrite map_tab. reflexivity.
Qed.

Lemma values_tab n K dc da X A W V M c : (0 < n)%nat -> coefs_are n dc da c W V M ->
  let '(cc, ac, cac) := c in
  exists cv av iv, context_values (tabR2 n dc X) cc = Ok cv /\ action_values n (tabR2 K da A) ac = Ok av /\
    interaction_values (tabR2 n dc X) (tabR2 K da A) da ac cac = Ok iv /\
    map (fun q => map (fun ai => fst q + fst ai + snd ai) (combine (fst (snd q)) (snd (snd q)))) (combine cv (combine av iv))
    = tabR2 n K (bilinear dc da X A W V M).
Proof.
  intros Hn H. destruct c as [[cc ac] cac].
  assert (G : context_values (tabR2 n dc X) cc = Ok (tab n (fun i => sumn dc (fun j => X i j * W i j))) /\
    action_values n (tabR2 K da A) ac = Ok (tab n (fun i => tab K (fun a => sumn da (fun l => V i l * A a l)))) /\
    interaction_values (tabR2 n dc X) (tabR2 K da A) da ac cac = Ok (tab n (fun i => tab K (fun a => sumn da (fun l => sumn dc (fun j => X i j * M i j l) * A a l))))).
  { destruct H as [(w & v & m & E & H)|E]; injection E as -> -> ->.
    - split; [|split].
      + unfold context_values. f_equal. unfold tabR2. rewrite map_tab. apply tab_ext. intros i Hi. rewrite rdot_tab. destruct (H i) as (-> & _ & _). reflexivity.
      + unfold action_values. f_equal. rewrite repeat_is_tab. apply tab_ext. intros i Hi. unfold tabR2. rewrite map_tab. apply tab_ext. intros a Ha. rewrite rdot_tab. destruct (H i) as (_ & -> & _). reflexivity.
      + assert (E : Ok (map (fun x => map (fun a => rdot (vecmat x (tabR2 dc da m) da) a) (tabR2 K da A)) (tabR2 n dc X)) =
          Ok (tab n (fun i => tab K (fun a => sumn da (fun l => sumn dc (fun j => X i j * M i j l) * A a l))))).
        { f_equal. change (tabR2 n dc X) with (tab n (fun i => tab dc (X i))). change (tabR2 K da A) with (tab K (fun i => tab da (A i))). rewrite map_tab. apply tab_ext. intros i Hi. rewrite map_tab. apply tab_ext. intros a Ha. rewrite vecmat_tab, rdot_tab. destruct (H i) as (_ & _ & ->). reflexivity. }
        unfold interaction_values. destruct (negb _); exact E.
    - split; [|split].
      + unfold context_values, tabR2. rewrite !tab_length, Nat.eqb_refl. f_equal. rewrite combine_tab, map_tab. apply tab_ext. intros i Hi. cbn [fst snd]. apply rdot_tab.
      + unfold action_values, tabR2. rewrite !tab_length, Nat.eqb_refl. f_equal. rewrite map_tab. apply tab_ext. intros i Hi. rewrite map_tab. apply tab_ext. intros a Ha. apply rdot_tab.
      + unfold interaction_values, rows1. rewrite !tabR2_length, !tab_length, Nat.eqb_refl. cbn [negb]. f_equal.
        change (tabR2 n dc X) with (tab n (fun i => tab dc (X i))). rewrite combine_tab, map_tab. apply tab_ext. intros i Hi.
        cbn [fst snd]. change (tabR2 K da A) with (tab K (fun i => tab da (A i))). rewrite map_tab. apply tab_ext. intros a Ha. rewrite vecmat_tab. apply rdot_tab. }
  destruct G as (-> & -> & ->). do 3 eexists. split; [reflexivity|]. split; [reflexivity|]. split; [reflexivity|].
  rewrite !combine_tab, map_tab. unfold tabR2. apply tab_ext. intros i Hi. cbn [fst snd]. rewrite combine_tab, map_tab. reflexivity.
Qed.

(** ** C108 *)

(** The columns used: all of them, or the randomly chosen ones of the sparse functions. *)
Definition columns (ratio : R) (which d : nat) (choose : nat -> nat -> nat -> list nat) (e : nat) (col : nat -> nat) : Prop :=
  (1 <= ratio /\ e = d /\ forall j, col j = j) \/
  (ratio < 1 /\ INR e <= INR d * ratio < INR e + 1 /\ (1 <= e)%nat /\ choose which d e = tab e col /\ forall j, (j < e)%nat -> (col j < d)%nat) \/
  (ratio < 1 /\ INR d * ratio < 1 /\ e = 1%nat /\ choose which d e = tab e col /\ forall j, (j < e)%nat -> (col j < d)%nat).

Lemma columns_tab ratio which d choose e col n X : 0 <= ratio <= 1 -> columns ratio which d choose e col ->
  (if Rltb ratio 1 then Nat.max (Z.to_nat (Int_part (INR d * ratio))) 1 else d) = e /\
  (if Rltb ratio 1 then map (fun r => map (fun j => nth j r 0) (choose which d e)) (tabR2 n d X) else tabR2 n d X) = tabR2 n e (fun i j => X i (col j)).
Proof.
  intros Hr H. unfold columns in H.
  assert (D0 := pos_INR d). set (x := INR d * ratio) in *. assert (X0 : 0 <= x) by (unfold x; nra).
  pose proof (base_Int_part x) as (B1 & B2).
  assert (Z0 : (0 <= Int_part x)%Z). { assert (IZR (-1) < IZR (Int_part x)) as L by lra. apply lt_IZR in L. lia. }
  assert (Et : INR (Z.to_nat (Int_part x)) = IZR (Int_part x)) by (rewrite INR_IZR_INZ, Z2Nat.id by auto; reflexivity).
  assert (Uniq : forall k, INR k <= x < INR k + 1 -> Z.to_nat (Int_part x) = k).
  { intros k Hk. assert (INR (Z.to_nat (Int_part x)) < INR (S k)) as L1 by (rewrite S_INR; lra). assert (INR k < INR (S (Z.to_nat (Int_part x)))) as L2 by (rewrite S_INR; lra).
    apply INR_lt in L1. apply INR_lt in L2. lia. }
  assert (Pick : forall c, choose which d e = tab e c -> (forall j, (j < e)%nat -> (c j < d)%nat) ->
    map (fun r => map (fun j => nth j r 0) (choose which d e)) (tabR2 n d X) = tabR2 n e (fun i j => X i (c j))).
  { intros c Ec Hc. rewrite Ec. unfold tabR2. rewrite map_tab. apply tab_ext. intros i Hi. rewrite map_tab. apply tab_ext. intros j Hj. apply nth_tab. auto. }
  destruct H as [(H1 & -> & Hc)|[(H1 & Hx & H2 & Ec & Hc)|(H1 & Hx & -> & Ec & Hc)]].
  - rewrite (proj2 (Rltb_false ratio 1)) by lra. split; [reflexivity|]. unfold tabR2. apply tab_ext. intros i Hi. apply tab_ext. intros j Hj. rewrite Hc. reflexivity.
  - rewrite (proj2 (Rltb_true ratio 1)) by lra. rewrite (Uniq e Hx). split; [lia|]. apply Pick; auto.
  - rewrite (proj2 (Rltb_true ratio 1)) by lra. rewrite (Uniq 0%nat) by (cbn; lra). split; [reflexivity|]. apply Pick; auto.
Qed.

(** The reward functions: degree times the bilinear value of the (chosen) features, minus degree times mean/sd of the whole
    table when z_score is asked for. *)
Theorem C108_reward : forall poly choose coefs context action_context degree ratio z n K dc da ec ea X A cx ca W V M,
  (0 < n)%nat -> (0 < K)%nat -> (1 <= degree)%nat -> 0 <= ratio <= 1 ->
  poly degree context = tabR2 n dc X -> poly degree action_context = tabR2 K da A ->
  columns ratio 0 dc choose ec cx -> columns ratio 1 da choose ea ca ->
  coefs_are n ec ea (coefs n ea ec) W V M ->
  let v := bilinear ec ea (fun i j => X i (cx j)) (fun a l => A a (ca l)) W V M in
  base_reward poly choose coefs context action_context (Z.of_nat degree) ratio z =
  Ok (tab n (fun i => tab K (fun a => nmul (nnat degree) (nsub (Fin (v i a)) (if z then ndiv (Fin (table_mean n K v)) (Fin (table_sd n K v)) else Fin 0))))).
Proof.
  intros poly choose coefs context action_context degree ratio z n K dc da ec ea X A cx ca W V M Hn HK Hd Hr Px Pa Cx Ca Hc v.
  unfold base_reward, check_scalar_Z, check_scalar. destruct (Z.ltb_spec (Z.of_nat degree) 1); [lia|]. cbn [nlt raise_if bind].
  rewrite (proj2 (Rltb_false ratio 0)) by lra. rewrite (proj2 (Rltb_false 1 ratio)) by lra. cbn [raise_if bind]. rewrite Nat2Z.id. rewrite Px, Pa. cbv zeta.
  assert (Ln : length (tabR2 n dc X) = n) by apply tab_length. rewrite Ln.
  assert (Ldc : length (nth 0 (tabR2 n dc X) []) = dc) by (unfold tabR2; rewrite nth_tab by auto; apply tab_length).
  assert (Lda : length (nth 0 (tabR2 K da A) []) = da) by (unfold tabR2; rewrite nth_tab by auto; apply tab_length).
  rewrite Ldc, Lda.
  destruct (columns_tab ratio 0 dc choose ec cx n X Hr Cx) as (E1 & E2). destruct (columns_tab ratio 1 da choose ea ca K A Hr Ca) as (E3 & E4).
  rewrite E1, E3, E2, E4.
  pose proof (values_tab n K ec ea (fun i j => X i (cx j)) (fun a l => A a (ca l)) W V M (coefs n ea ec) Hn Hc) as H1.
  destruct (coefs n ea ec) as [[cc ac] cac]. destruct H1 as (cv & av & iv & -> & -> & -> & E). cbn [bind]. unfold v. rewrite <- finish_tab. f_equal. f_equal. exact E.
Qed.

Theorem C108_rejects : forall poly choose coefs context action_context degree ratio z,
  (degree < 1)%Z \/ ratio < 0 \/ 1 < ratio ->
  base_reward poly choose coefs context action_context degree ratio z = Err ValueError.
Proof.
  intros poly choose coefs context action_context degree ratio z HH. unfold base_reward, check_scalar_Z, check_scalar. cbn [nlt]. destruct (Z.ltb_spec degree 1) as [L|L]; [reflexivity|]. cbn [raise_if bind].
  destruct (Rltb ratio 0) eqn:E0; [reflexivity|]. destruct (Rltb 1 ratio) eqn:E1; [reflexivity|]. apply Rltb_false in E0. apply Rltb_false in E1. destruct HH as [HH|HH]; [lia|lra].
Qed.

(** ** Tables: mean and spread *)
Lemma tm_lin n K f c b : (0 < n)%nat -> (0 < K)%nat -> table_mean n K (fun i a => c * f i a + b) = c * table_mean n K f + b.
Proof.
  intros Hn HK. unfold table_mean. rewrite (sumn_ext n _ (fun i => c * sumn K (f i) + INR K * b)).
  - rewrite sumn_plus, sumn_scal, sumn_const. assert (0 < INR n) by (apply INR_pos; auto). assert (0 < INR K) by (apply INR_pos; auto). field. lra.
  - intros i Hi. rewrite sumn_plus, sumn_scal, sumn_const. reflexivity.
Qed.
Lemma tm_ext n K f g : (forall i a, (i < n)%nat -> (a < K)%nat -> f i a = g i a) -> table_mean n K f = table_mean n K g.
Proof. intros H. unfold table_mean. f_equal. apply sumn_ext. intros i Hi. apply sumn_ext. auto. Qed.
Lemma tsd_lin n K f c b : (0 < n)%nat -> (0 < K)%nat -> table_sd n K (fun i a => c * f i a + b) = Rabs c * table_sd n K f.
Proof.
  intros Hn HK. unfold table_sd. rewrite tm_lin by auto.
  rewrite (tm_ext n K _ (fun i a => c ^ 2 * (f i a - table_mean n K f) ^ 2 + 0)) by (intros; ring). rewrite tm_lin by auto. rewrite Rplus_0_r.
  rewrite sqrt_mult_alt by nra. f_equal. replace (c ^ 2) with (Rsqr c) by (unfold Rsqr; ring). apply sqrt_Rsqr_abs.
Qed.
Lemma tsd_ext n K f g : (forall i a, (i < n)%nat -> (a < K)%nat -> f i a = g i a) -> table_sd n K f = table_sd n K g.
Proof. intros H. unfold table_sd. rewrite (tm_ext n K f g H). f_equal. apply tm_ext. intros. rewrite H by auto. reflexivity. Qed.
Lemma tm_nonneg n K f : (0 < n)%nat -> (0 < K)%nat -> (forall i a, (i < n)%nat -> (a < K)%nat -> 0 <= f i a) -> 0 <= table_mean n K f.
Proof.
  intros Hn HK H. unfold table_mean. assert (0 < INR n) by (apply INR_pos; auto). assert (0 < INR K) by (apply INR_pos; auto).
  apply Rmult_le_pos; [apply sumn_nonneg; intros; apply sumn_nonneg; auto|]. left. apply Rinv_0_lt_compat. nra.
Qed.
(** The spread is zero exactly when all entries are equal. *)
Lemma tsd_zero n K f : (0 < n)%nat -> (0 < K)%nat ->
  (table_sd n K f = 0 <-> forall i a, (i < n)%nat -> (a < K)%nat -> f i a = f 0%nat 0%nat).
Proof.
  intros Hn HK. split.
  - intros H. unfold table_sd in H. apply sqrt_eq_0 in H; [|apply tm_nonneg; auto; intros; apply pow2_ge_0].
    assert (0 < INR n) by (apply INR_pos; auto). assert (0 < INR K) by (apply INR_pos; auto).
    unfold table_mean at 1 in H. assert (S0 : sumn n (fun i => sumn K (fun a => (f i a - table_mean n K f) ^ 2)) = 0).
    { apply (Rmult_eq_reg_r (/ (INR n * INR K))); [unfold Rdiv in H; rewrite H; ring|]. apply Rinv_neq_0_compat. nra. }
    assert (E : forall i a, (i < n)%nat -> (a < K)%nat -> f i a = table_mean n K f).
    { intros i a Hi Ha. assert (Q : forall j b, 0 <= (f j b - table_mean n K f) ^ 2) by (intros; apply pow2_ge_0).
      assert (S1 : sumn K (fun a => (f i a - table_mean n K f) ^ 2) = 0) by (apply (sumn_zero_inv n (fun i => sumn K (fun a => (f i a - table_mean n K f) ^ 2))); auto; intros; apply sumn_nonneg; auto).
      assert (S2 : (f i a - table_mean n K f) ^ 2 = 0) by (apply (sumn_zero_inv K (fun a => (f i a - table_mean n K f) ^ 2)); auto). nra. }
    intros i a Hi Ha. rewrite (E i a), (E 0%nat 0%nat) by auto. reflexivity.
  - intros H. rewrite (tsd_ext n K f (fun i a => 0 * f i a + f 0%nat 0%nat)) by (intros; rewrite H by auto; ring).
    rewrite tsd_lin by auto. rewrite Rabs_R0. ring.
Qed.

(** What z_score does: the spread of the table is not changed (it becomes degree times the original one, not degree), and
    the mean is zero only if it was or the spread was one. *)
Theorem C108_z_score : forall degree n K (v r : nat -> nat -> R), (0 < n)%nat -> (0 < K)%nat -> (1 <= degree)%nat -> 0 < table_sd n K v ->
  (forall i a, (i < n)%nat -> (a < K)%nat ->
     nmul (nnat degree) (nsub (Fin (v i a)) (ndiv (Fin (table_mean n K v)) (Fin (table_sd n K v)))) = Fin (r i a)) ->
  table_sd n K r = INR degree * table_sd n K v /\
  (table_mean n K r = 0 <-> table_mean n K v = 0 \/ table_sd n K v = 1).
Proof.
  intros degree n K v r Hn HK Hd Hs Hr. set (m := table_mean n K v) in *. set (s := table_sd n K v) in *.
  assert (E : forall i a, (i < n)%nat -> (a < K)%nat -> r i a = INR degree * v i a + - (INR degree * (m / s))).
  { intros i a Hi Ha. specialize (Hr i a Hi Ha). unfold nnat in Hr. rewrite ndiv_Fin in Hr by lra. cbn in Hr. injection Hr as <-. unfold Rdiv. ring. }
  assert (0 < INR degree) by (apply INR_pos; lia).
  split.
  - rewrite (tsd_ext _ _ _ _ E). rewrite tsd_lin by auto. rewrite Rabs_right by lra. reflexivity.
  - rewrite (tm_ext _ _ _ _ E). rewrite tm_lin by auto. fold m.
    assert (F : INR degree * m + - (INR degree * (m / s)) = INR degree * m * (s - 1) / s) by (field; lra). rewrite F. split.
    + intros H0. assert (G : INR degree * m * (s - 1) = 0). { apply (Rmult_eq_reg_r (/ s)); [unfold Rdiv in H0; rewrite H0; ring|apply Rinv_neq_0_compat; lra]. }
      apply Rmult_integral in G as [G|G]; [|right; lra]. apply Rmult_integral in G as [G|G]; [lra|left; auto].
    + intros [-> | ->]; unfold Rdiv; ring.
Qed.

(** If all values are equal the standardised reward is infinite, or NaN when they are all zero. *)
Theorem C108_constant_values : forall degree n K (v : nat -> nat -> R) c, (0 < n)%nat -> (0 < K)%nat -> (1 <= degree)%nat ->
  (forall i a, (i < n)%nat -> (a < K)%nat -> v i a = c) -> forall i a, (i < n)%nat -> (a < K)%nat ->
  nmul (nnat degree) (nsub (Fin (v i a)) (ndiv (Fin (table_mean n K v)) (Fin (table_sd n K v)))) =
  if Rlt_dec 0 c then NInf else if Rlt_dec c 0 then PInf else NaN.
Proof.
  intros degree n K v c Hn HK Hd Hv i a Hi Ha.
  assert (Es : table_sd n K v = 0) by (apply tsd_zero; auto; intros; rewrite !Hv by auto; reflexivity).
  assert (Em : table_mean n K v = c). { rewrite (tm_ext n K v (fun i a => 0 * v i a + c)) by (intros; rewrite Hv by auto; ring). rewrite tm_lin by auto. ring. }
  rewrite Es, Em. unfold ndiv. rewrite (proj2 (Reqb_true 0 0) eq_refl). unfold inf_sign.
  assert (0 < INR degree) by (apply INR_pos; lia).
  unfold Rltb. destruct (Rlt_dec 0 c); [|destruct (Rlt_dec c 0)]; cbn; unfold inf_sign, Rltb; repeat (destruct (Rlt_dec _ _); try lra); reflexivity.
Qed.

(** The order of the actions is that of the bilinear values, and the logistic functions keep it and stay inside (0,1). *)
Theorem C108_order : forall degree sh x y rx ry, (1 <= degree)%nat ->
  nmul (nnat degree) (nsub (Fin x) (Fin sh)) = Fin rx -> nmul (nnat degree) (nsub (Fin y) (Fin sh)) = Fin ry ->
  (x < y <-> rx < ry) /\ (x < y <-> sigmoid rx < sigmoid ry) /\ 0 < sigmoid rx < 1 /\
  logistic_of [[Fin rx]] = [[Some (sigmoid rx)]].
Proof.
  intros degree sh x y rx ry Hd Hx Hy. unfold nnat in *. cbn in Hx, Hy. injection Hx as <-. injection Hy as <-.
  assert (D : 0 < INR degree) by (apply INR_pos; lia).
  assert (Sg : forall u v, sigmoid u < sigmoid v <-> u < v).
  { assert (P : forall u v, u < v -> sigmoid u < sigmoid v).
    { intros u v Huv. rewrite !C01_sigmoid_value. apply Rmult_lt_compat_l; [lra|]. pose proof (exp_pos (- u)). pose proof (exp_pos (- v)).
      apply Rinv_lt_contravar; [nra|]. assert (exp (- v) < exp (- u)) by (apply exp_increasing; lra). lra. }
    intros u v. split; [|apply P]. intros H. destruct (Rlt_dec u v) as [L|L]; auto. exfalso. destruct (Req_dec u v) as [->|Ne]; [lra|]. specialize (P v u ltac:(lra)). lra. }
  split; [split; intros; nra|]. split; [rewrite Sg; split; intros; nra|]. split; [|reflexivity].
  rewrite C01_sigmoid_value. set (E := exp _). assert (0 < E) by apply exp_pos. split.
  - apply Rmult_lt_0_compat; [lra|apply Rinv_0_lt_compat; lra].
  - apply (Rmult_lt_reg_r (1 + E)); [lra|]. unfold Rdiv. rewrite Rmult_assoc, Rinv_l by lra. lra.
Qed.

(** The behaviour policies' logits really are standardised: mean 0 and spread degree; equal raw logits give NaN. *)
Theorem C108_behaviour : forall degree n K dc da X A v m, (0 < n)%nat -> (0 < K)%nat -> (1 <= degree)%nat ->
  let raw i a := sumn da (fun l => sumn dc (fun j => X i j * m j l) * A a l) + sumn da (fun l => v l * A a l) in
  behaviour_raw (tabR2 n dc X) (tabR2 K da A) (tab da v) (tabR2 dc da m) = tabR2 n K raw /\
  (0 < table_sd n K raw -> exists lg,
     behaviour_logits degree (tabR2 n K raw) = tab2F n K lg /\ table_mean n K lg = 0 /\ table_sd n K lg = INR degree /\
     forall i j a b, (i < n)%nat -> (j < n)%nat -> (a < K)%nat -> (b < K)%nat -> (lg i a < lg j b <-> raw i a < raw j b)) /\
  (table_sd n K raw = 0 -> behaviour_logits degree (tabR2 n K raw) = tab n (fun _ => tab K (fun _ => NaN))).
Proof.
  intros degree n K dc da X A v m Hn HK Hd raw. assert (D : 0 < INR degree) by (apply INR_pos; lia). split; [|split].
  - unfold behaviour_raw. rewrite tab_length. change (tabR2 n dc X) with (tab n (fun i => tab dc (X i))). change (tabR2 K da A) with (tab K (fun i => tab da (A i))). rewrite map_tab. apply tab_ext. intros i Hi. rewrite map_tab. apply tab_ext. intros a Ha.
    rewrite vecmat_tab, !rdot_tab. reflexivity.
  - intros Hs. set (mu := table_mean n K raw). set (s := table_sd n K raw) in *.
    exists (fun i a => INR degree * (raw i a - mu) / s).
    assert (E : forall i a, (i < n)%nat -> (a < K)%nat -> INR degree * (raw i a - mu) / s = (INR degree / s) * raw i a + - (INR degree / s * mu)) by (intros; field; lra).
    split; [|split; [|split]].
    + unfold behaviour_logits. rewrite rmean_tab, rstd_tab. fold mu s. unfold tabR2, tab2F, tabF. rewrite map_tab. apply tab_ext. intros i Hi. rewrite map_tab. apply tab_ext. intros a Ha.
      unfold nnat, nsub, nopp, nadd, nmul. rewrite ndiv_Fin by lra. reflexivity.
    + rewrite (tm_ext _ _ _ _ E). rewrite tm_lin by auto. fold mu. ring.
    + rewrite (tsd_ext _ _ _ _ E). rewrite tsd_lin by auto. fold s. rewrite Rabs_right by (apply Rle_ge; left; apply Rdiv_lt_0_compat; lra). field. lra.
    + intros i j a b Hi Hj Ha Hb. rewrite !E by auto. assert (0 < INR degree / s) by (apply Rdiv_lt_0_compat; lra). split; intros; nra.
  - intros Hs. assert (C := proj1 (tsd_zero n K raw Hn HK) Hs). unfold behaviour_logits. rewrite rmean_tab, rstd_tab, Hs.
    assert (Em : table_mean n K raw = raw 0%nat 0%nat). { rewrite (tm_ext n K raw (fun i a => 0 * raw i a + raw 0%nat 0%nat)) by (intros; rewrite C by auto; ring). rewrite tm_lin by auto. ring. }
    rewrite Em. unfold tabR2. rewrite map_tab. apply tab_ext. intros i Hi. rewrite map_tab. apply tab_ext. intros a Ha. rewrite C by auto.
    unfold nnat, nsub, nopp, nadd, nmul, ndiv. rewrite (proj2 (Reqb_true 0 0) eq_refl). unfold inf_sign, Rltb.
    replace (INR degree * (raw 0%nat 0%nat + - raw 0%nat 0%nat)) with 0 by ring. destruct (Rlt_dec 0 0); [lra|]. reflexivity.
Qed.

(** ** Concrete cases *)
(** Two rounds with one feature and a bias column, two actions, shared coefficients; features 0 and 1. *)
Definition ex_poly (degree : nat) (m : list (list R)) : list (list R) := map (fun r => 1 :: r) m.
Definition ex_coefs (n ea ec : nat) : coef1 * coef1 * coef2 := (One (tab ec (fun _ => 1)), One (tab ea (fun _ => 1)), One2 (tabR2 ec ea (fun _ _ => 1))).
Example C108_example :
  base_reward ex_poly (fun _ _ _ => []) ex_coefs [[0]; [1]] [[0]; [1]] 1 1 false = Ok [[Fin 3; Fin 5]; [Fin 5; Fin 8]].
Proof.
  pose proof (C108_reward ex_poly (fun _ _ _ => []) ex_coefs [[0]; [1]] [[0]; [1]] 1 1 false 2 2 2 2 2 2
    (fun i j => if Nat.eqb j 0 then 1 else INR i) (fun i j => if Nat.eqb j 0 then 1 else INR i) (fun j => j) (fun j => j) (fun _ _ => 1) (fun _ _ => 1) (fun _ _ _ => 1)
    ltac:(lia) ltac:(lia) ltac:(lia) ltac:(lra)) as H.
  cbv zeta in H. change (Z.of_nat 1) with 1%Z in H. rewrite H.
  - unfold tab. cbn. unfold bilinear. cbn. repeat f_equal; lra.
  - unfold tabR2, tab. reflexivity.
  - unfold tabR2, tab. reflexivity.
  - left. repeat split; lra.
  - left. repeat split; lra.
  - left. do 3 eexists. split; [reflexivity|]. intros i. auto.
Qed.
Example C108_z_score_example : 0 < table_sd 1 2 (fun _ a => INR a) /\ table_mean 1 2 (fun _ a => INR a) = 1 / 2 /\ table_sd 1 2 (fun _ a => INR a) = 1 / 2.
Proof.
  assert (M : table_mean 1 2 (fun _ a => INR a) = 1 / 2) by (unfold table_mean; cbn; lra).
  assert (S : table_sd 1 2 (fun _ a => INR a) = 1 / 2).
  { unfold table_sd. rewrite M. unfold table_mean. cbn. replace (_ / _) with (Rsqr (1 / 2)) by (unfold Rsqr; lra). apply sqrt_Rsqr. lra. }
  rewrite S. repeat split; auto; lra.
Qed.

Print Assumptions C108_reward.
Print Assumptions C108_rejects.
Print Assumptions C108_z_score.
Print Assumptions C108_constant_values.
Print Assumptions C108_order.
Print Assumptions C108_behaviour.
