(** * P_SlateInt: integer behaviour propensities change what the self-normalised slate estimators return (C170). *)

From Coq Require Import Reals List ZArith Bool Lia Lra Psatz.
From Verif Require Import Num NpList M_Utils M_Slate M_SlateInt S_Base S_Prob S_Slate L_Num L_Base L_Slate L_SlateEst P_Slate.
Import ListNotations.
Open Scope R_scope.

(** Specification: the integer nearest to x in the direction of zero. *)
Definition towards_zero (x : R) (z : Z) : Prop := Rabs (IZR z) <= Rabs x < Rabs (IZR z) + 1 /\ 0 <= x * IZR z.
(** Number of rows at position k to which the evaluation policy gives probability exactly one. *)
Definition certain_rows (l : slog) (k : nat) : R := pos_total l k (fun i => if Req_EM_T (sl_pe l i) 1 then 1 else 0).

Lemma int_part_nonneg x : 0 <= x -> (0 <= Int_part x)%Z.
Proof. intros H. destruct (base_Int_part x) as [H1 H2]. assert (IZR (-1) < IZR (Int_part x)) by (simpl; lra). apply lt_IZR in H0. lia. Qed.
Lemma drop_fraction_spec x : towards_zero x (drop_fraction x).
Proof.
  unfold towards_zero, drop_fraction. destruct (Rle_dec 0 x) as [H|H].
  - pose proof (IZR_le _ _ (int_part_nonneg x H)). destruct (base_Int_part x). rewrite !Rabs_right by lra. split; [lra|]. apply Rmult_le_pos; lra.
  - assert (Hx : 0 <= - x) by lra. pose proof (IZR_le _ _ (int_part_nonneg (- x) Hx)) as H0. destruct (base_Int_part (- x)). rewrite opp_IZR.
    rewrite Rabs_Ropp, (Rabs_right (IZR (Int_part (- x)))), (Rabs_left x) by lra. split; [lra|]. nra.
Qed.
Lemma towards_zero_unique x y z : towards_zero x y -> towards_zero x z -> y = z.
Proof.
  intros [[A1 A2] A3] [[B1 B2] B3]. rewrite <- !abs_IZR in *.
  assert (E : Z.abs y = Z.abs z).
  { assert (Z.abs y < Z.abs z + 1)%Z by (apply lt_IZR; rewrite plus_IZR; lra). assert (Z.abs z < Z.abs y + 1)%Z by (apply lt_IZR; rewrite plus_IZR; lra). lia. }
  assert (D : y = z \/ y = (- z)%Z) by lia. destruct D as [|D]; auto. subst y. rewrite opp_IZR in A3.
  assert (P : x * IZR z = 0) by lra. apply Rmult_integral in P as [P|P].
  - rewrite P, Rabs_R0 in B1. apply (le_IZR _ 0) in B1. lia.
  - apply eq_IZR in P. lia.
Qed.
Lemma drop_fraction_IZR z : drop_fraction (IZR z) = z.
Proof.
  apply (towards_zero_unique (IZR z)); [apply drop_fraction_spec|]. split; [lra|]. apply Rle_0_sqr.
Qed.
Lemma drop_below_one x : 0 <= x < 1 -> drop_fraction x = 0%Z.
Proof.
  intros H. apply (towards_zero_unique x); [apply drop_fraction_spec|]. split; [|lra]. rewrite Rabs_R0, Rabs_right by lra. lra.
Qed.

(** What one row contributes. *)
Definition int_row (cast : num -> Z) (l : slog) (len i : nat) : R :=
  if lt_dec (sl_pos l i) len then
    if Req_EM_T (certain_rows l (sl_pos l i)) 0 then IZR (cast NaN)
    else if Req_EM_T (sl_pe l i) 1 then IZR (drop_fraction (sl_r l i * pos_count l (sl_pos l i) / certain_rows l (sl_pos l i)))
    else 0
  else 0.

Lemma int_rounds cast l len : rows_ok l -> (forall i, (i < sl_n l)%nat -> sl_p l i = 1) ->
  sn_position_rounds_int cast len (s_rew l) (s_pos l) (s_p l) (s_pe l) = Ok (tabF (sl_n l) (int_row cast l len)).
Proof.
  intros H Hp. unfold sn_position_rounds_int. rewrite iw_rows by auto. cbn [bind]. f_equal.
  assert (Ew : map (to_integer cast) (tabF (sl_n l) (s_weight l)) = tabF (sl_n l) (fun i => if Req_EM_T (sl_pe l i) 1 then 1 else 0)).
  { unfold tabF. rewrite map_tab. apply tab_ext. intros i Hi. cbn [to_integer]. do 2 f_equal. unfold s_weight. rewrite (Hp i Hi).
    pose proof (so_pe l H i Hi). replace (sl_pe l i / 1) with (sl_pe l i) by field.
    destruct (Req_EM_T (sl_pe l i) 1) as [E|E]; [rewrite E; apply (f_equal IZR (drop_fraction_IZR 1))|rewrite drop_below_one; [reflexivity|]; split; [lra|]].
    destruct H0 as [_ [H1|H1]]; [lra|congruence]. }
  cbv zeta. rewrite Ew.
  set (w := fun i => if Req_EM_T (sl_pe l i) 1 then 1 else 0).
  assert (E : combine (s_pos l) (combine (s_rew l) (tabF (sl_n l) w)) = tab (sl_n l) (fun i => (Z.of_nat (sl_pos l i), (Fin (sl_r l i), Fin (w i))))).
  { unfold s_pos, s_rew, tabZ, tabF. rewrite !combine_tab. reflexivity. }
  rewrite E, map_tab. unfold tabF at 2. apply tab_ext. intros i Hi. replace (Z.leb 0 (Z.of_nat (sl_pos l i))) with true by (symmetry; apply Z.leb_le; lia).
  unfold int_row. cbn [andb]. destruct (lt_dec (sl_pos l i) len) as [Hl|Hl].
  2:{ replace (Z.ltb (Z.of_nat (sl_pos l i)) (Z.of_nat len)) with false by (symmetry; apply Z.ltb_ge; lia). reflexivity. }
  replace (Z.ltb (Z.of_nat (sl_pos l i)) (Z.of_nat len)) with true by (symmetry; apply Z.ltb_lt; lia).
  unfold s_pos. rewrite at_position_tab. assert (Hc : 0 < pos_count l (sl_pos l i)) by (apply pos_count_pos; eauto).
  change (sumn (sl_n l) (fun i0 => if Nat.eq_dec (sl_pos l i0) (sl_pos l i) then w i0 else 0)) with (certain_rows l (sl_pos l i)).
  change (sumn (sl_n l) (fun i0 => if Nat.eq_dec (sl_pos l i0) (sl_pos l i) then 1 else 0)) with (pos_count l (sl_pos l i)).
  rewrite ndiv_Fin by lra. set (c := pos_count l (sl_pos l i)) in *. cbn [nmul]. destruct (Req_EM_T (certain_rows l (sl_pos l i)) 0) as [E0|E0].
  - assert (Wi : w i = 0).
    { unfold w. destruct (Req_EM_T (sl_pe l i) 1) as [E1|]; auto. exfalso. assert (0 < certain_rows l (sl_pos l i)); [|lra].
      unfold certain_rows, pos_total. apply (sumn_pos _ _ i); auto.
      - intros j _. destruct (Nat.eq_dec _ _); [destruct (Req_EM_T _ _); lra|lra].
      - destruct (Nat.eq_dec _ _); [|congruence]. destruct (Req_EM_T _ _); [lra|congruence]. }
    rewrite Wi, E0. replace (sl_r l i * 0) with 0 by ring. replace (0 / c) with 0 by (field; lra).
    rewrite ndiv_0_0. reflexivity.
  - assert (Hh : 0 < certain_rows l (sl_pos l i)).
    { assert (0 <= certain_rows l (sl_pos l i)); [|lra]. unfold certain_rows, pos_total. apply sumn_nonneg. intros j _.
      destruct (Nat.eq_dec _ _); [destruct (Req_EM_T _ _); lra|lra]. }
    set (h := certain_rows l (sl_pos l i)) in *. assert (0 < h / c) by (apply Rdiv_lt_0_compat; auto).
    rewrite ndiv_Fin by lra. cbn [to_integer]. f_equal. unfold w. destruct (Req_EM_T (sl_pe l i) 1).
    + do 2 f_equal. field. split; lra.
    + replace (sl_r l i * 0 / (h / c)) with 0 by (field; split; lra). apply (f_equal IZR (drop_fraction_IZR 0)).
Qed.

(** ** C170 *)

(** Integer behaviour propensities must be 1 (they lie in (0,1]).  Exact value: a row counts only if the evaluation policy gives it probability one; it then contributes its
    reward times (rows at its position / such rows at its position), with the fraction dropped. *)
Theorem C170_integer_value : forall cast l ids len z, rows_ok l -> slates l ids -> (forall i, (i < sl_n l)%nat -> sl_p l i = 1) ->
  (forall i, (i < sl_n l)%nat -> (sl_pos l i < len)%nat -> 0 < certain_rows l (sl_pos l i)) ->
  (forall i, (i < sl_n l)%nat -> towards_zero (sl_r l i * pos_count l (sl_pos l i) / certain_rows l (sl_pos l i)) (z i)) ->
  let v := slate_mean l ids (fun i => if lt_dec (sl_pos l i) len then if Req_EM_T (sl_pe l i) 1 then IZR (z i) else 0 else 0) in
  sniips_int_value cast len (s_ids l) (s_rew l) (s_pos l) (s_p l) (s_pe l) = Ok (Fin v) /\
  (cascading l -> snrips_int_value cast len (s_ids l) (s_rew l) (s_pos l) (s_p l) (s_pe l) = Ok (Fin v)).
Proof.
  intros cast l ids len z H Hs Hp Hc Hz v.
  assert (E : slate_mean l ids (int_row cast l len) = v).
  { unfold v. rewrite !slate_mean_rows by auto. f_equal. apply sumn_ext. intros i Hi. unfold int_row. destruct (lt_dec _ _) as [Hl|]; auto.
    specialize (Hc i Hi Hl). destruct (Req_EM_T _ 0); [lra|]. destruct (Req_EM_T _ 1); auto. f_equal.
    apply (towards_zero_unique _ _ _ (drop_fraction_spec _) (Hz i Hi)). }
  rewrite <- E. split; [|intros Hcas]; apply slate_value_rows; auto using int_rounds, check_iips_rows, check_rips_rows.
Qed.

(** If no logged row has evaluation probability one, the estimate is made of the platform's cast of nan and does not depend on the rewards. *)
Theorem C170_stochastic_garbage : forall cast l ids len, rows_ok l -> slates l ids -> (forall i, (i < sl_n l)%nat -> sl_p l i = 1) ->
  (forall i, (i < sl_n l)%nat -> sl_pe l i < 1) ->
  let v := IZR (cast NaN) * (sumn (sl_n l) (fun i => if lt_dec (sl_pos l i) len then 1 else 0) / INR (length ids)) in
  sniips_int_value cast len (s_ids l) (s_rew l) (s_pos l) (s_p l) (s_pe l) = Ok (Fin v) /\
  (cascading l -> snrips_int_value cast len (s_ids l) (s_rew l) (s_pos l) (s_p l) (s_pe l) = Ok (Fin v)).
Proof.
  intros cast l ids len H Hs Hp Hc v. pose proof (INR_pos _ (slates_pos l ids Hs (so_n l H))) as HI.
  assert (E : slate_mean l ids (int_row cast l len) = v).
  { unfold v. rewrite slate_mean_rows by auto. unfold Rdiv. rewrite <- Rmult_assoc. f_equal. rewrite <- sumn_scal. apply sumn_ext. intros i Hi.
    unfold int_row. destruct (lt_dec _ _) as [Hl|]; [|ring].
    assert (E0 : certain_rows l (sl_pos l i) = 0).
    { unfold certain_rows, pos_total. rewrite (sumn_ext _ _ (fun _ => 0)); [rewrite sumn_const; ring|]. intros j Hj.
      destruct (Nat.eq_dec _ _); auto. specialize (Hc j Hj). destruct (Req_EM_T _ _); [lra|reflexivity]. }
    rewrite E0. destruct (Req_EM_T 0 0); [ring|congruence]. }
  rewrite <- E. split; [|intros Hcas]; apply slate_value_rows; auto using int_rounds, check_iips_rows, check_rips_rows.
Qed.

(** The same numbers in a float array give the documented estimate.  For a deterministic evaluation policy with a matching row at every position
    the two differ by at most the rows per slate. *)
Theorem C170_deterministic_gap : forall cast l ids len, rows_ok l -> slates l ids -> (forall i, (i < sl_n l)%nat -> sl_p l i = 1) ->
  (forall i, (i < sl_n l)%nat -> sl_pe l i = 0 \/ sl_pe l i = 1) ->
  (forall i, (i < sl_n l)%nat -> (sl_pos l i < len)%nat -> 0 < certain_rows l (sl_pos l i)) ->
  exists vi vf, sniips_int_value cast len (s_ids l) (s_rew l) (s_pos l) (s_p l) (s_pe l) = Ok (Fin vi) /\
    sniips_value len (s_ids l) (s_rew l) (s_pos l) (s_p l) (s_pe l) = Ok (Fin vf) /\
    Rabs (vi - vf) <= INR (sl_n l) / INR (length ids) /\
    ((forall i, (i < sl_n l)%nat -> sl_pe l i = 1 /\ exists q, sl_r l i = IZR q) -> vi = vf).
Proof.
  intros cast l ids len H Hs Hp Hd Hc. pose proof (INR_pos _ (slates_pos l ids Hs (so_n l H))) as HI.
  assert (Ew : forall i, (i < sl_n l)%nat -> s_weight l i = if Req_EM_T (sl_pe l i) 1 then 1 else 0).
  { intros i Hi. unfold s_weight. rewrite (Hp i Hi). destruct (Hd i Hi) as [E|E]; rewrite E; destruct (Req_EM_T _ _); lra. }
  assert (Et : forall k, pos_total l k (s_weight l) = certain_rows l k).
  { intros k. apply sumn_ext. intros i Hi. destruct (Nat.eq_dec _ _); auto. }
  assert (Em : forall i, (i < sl_n l)%nat -> (sl_pos l i < len)%nat -> 0 < pos_mean_weight l (sl_pos l i)).
  { intros i Hi Hl. unfold pos_mean_weight. rewrite Et. apply Rdiv_lt_0_compat; [auto|apply pos_count_pos; eauto]. }
  assert (E1 : sniips_int_value cast len (s_ids l) (s_rew l) (s_pos l) (s_p l) (s_pe l) = Ok (Fin (slate_mean l ids (int_row cast l len))))
    by (apply slate_value_rows; auto using int_rounds, check_iips_rows).
  assert (E2 : sniips_value len (s_ids l) (s_rew l) (s_pos l) (s_p l) (s_pe l)
     = Ok (Fin (slate_mean l ids (fun i => if lt_dec (sl_pos l i) len then sl_r l i * s_weight l i / pos_mean_weight l (sl_pos l i) else 0))))
    by (apply slate_value_rows; auto using sn_rounds, check_iips_rows).
  assert (Er : forall i, (i < sl_n l)%nat -> (sl_pos l i < len)%nat -> sl_r l i * s_weight l i / pos_mean_weight l (sl_pos l i)
     = if Req_EM_T (sl_pe l i) 1 then sl_r l i * pos_count l (sl_pos l i) / certain_rows l (sl_pos l i) else 0).
  { intros i Hi Hl. rewrite Ew by auto. unfold pos_mean_weight. rewrite Et. specialize (Hc i Hi Hl).
    assert (0 < pos_count l (sl_pos l i)) by (apply pos_count_pos; eauto). destruct (Req_EM_T _ _); field; split; lra. }
  eexists _, _. split; [exact E1|]. split; [exact E2|]. rewrite !slate_mean_rows by auto. split.
  - rewrite <- Rdiv_minus_distr, <- sumn_minus. unfold Rdiv at 1 3.
    rewrite Rabs_mult, (Rabs_right (/ INR (length ids))) by (apply Rle_ge, Rlt_le, Rinv_0_lt_compat; auto).
    apply Rmult_le_compat_r; [apply Rlt_le, Rinv_0_lt_compat; auto|].
    eapply Rle_trans; [apply sumn_abs|]. rewrite <- (Rmult_1_r (INR (sl_n l))), <- sumn_const. apply sumn_le. intros i Hi. unfold int_row.
    destruct (lt_dec _ _) as [Hl|]; [|rewrite Rminus_0_r, Rabs_R0; lra]. rewrite Er by auto. specialize (Hc i Hi Hl).
    destruct (Req_EM_T _ 0); [lra|]. destruct (Req_EM_T _ 1); [|rewrite Rminus_0_r, Rabs_R0; lra].
    set (x := sl_r l i * pos_count l (sl_pos l i) / certain_rows l (sl_pos l i)).
    destruct (drop_fraction_spec x) as [[A1 A2] A3]. revert A1 A2 A3. generalize (IZR (drop_fraction x)). intros y A1 A2 A3.
    unfold Rabs in *. destruct (Rcase_abs y), (Rcase_abs x), (Rcase_abs (y - x)); try lra; destruct (Rle_dec y 0); try lra; exfalso; nra.
  - intros Hq. f_equal. apply sumn_ext. intros i Hi. unfold int_row. destruct (lt_dec _ _) as [Hl|]; auto. rewrite Er by auto. specialize (Hc i Hi Hl).
    destruct (Req_EM_T _ 0); [lra|]. destruct (Req_EM_T _ 1); auto. destruct (Hq i Hi) as [_ [q Eq]].
    assert (Ec : certain_rows l (sl_pos l i) = pos_count l (sl_pos l i)).
    { apply sumn_ext. intros j Hj. destruct (Nat.eq_dec _ _); auto. destruct (Hq j Hj) as [Ej _]. destruct (Req_EM_T _ _); [reflexivity|congruence]. }
    rewrite Ec in Hc |- *. replace (sl_r l i * pos_count l (sl_pos l i) / pos_count l (sl_pos l i)) with (sl_r l i) by (field; lra).
    rewrite Eq. f_equal. apply drop_fraction_IZR.
Qed.

(** The dtype matters: two slates of one position, rewards 1 and 0, evaluation probabilities 1/2 and 1.  The float array gives 1/3, the integer array 0. *)
Definition int_log : slog := {| sl_n := 2; sl_id := fun i => i; sl_pos := fun _ => 0%nat;
  sl_r := fun i => match i with O => 1 | _ => 0 end; sl_p := fun _ => 1; sl_pe := fun i => match i with O => 1 / 2 | _ => 1 end |}.

Lemma int_log_ok : rows_ok int_log.
Proof.
  constructor; cbn [sl_n sl_p sl_pe sl_id sl_pos int_log]; [lia|intros; lra| |auto]. intros [|i] _; lra.
Qed.
Lemma int_log_slates : slates int_log [0; 1]%nat.
Proof.
  split; [repeat constructor; simpl; intuition lia|]. intros s. split.
  - intros [<-|[<-|[]]]; [exists 0%nat|exists 1%nat]; simpl; auto.
  - intros (i & Hi & <-). cbn [sl_n sl_id int_log] in *. destruct i as [|[|i]]; simpl; auto. lia.
Qed.

Theorem C170_dtype_changes_value : forall cast,
  sniips_value 1 (s_ids int_log) (s_rew int_log) (s_pos int_log) (s_p int_log) (s_pe int_log) = Ok (Fin (1 / 3)) /\
  sniips_int_value cast 1 (s_ids int_log) (s_rew int_log) (s_pos int_log) (s_p int_log) (s_pe int_log) = Ok (Fin 0).
Proof.
  intros cast. split.
  - destruct (C38_per_position_value int_log [0; 1]%nat 1 int_log_ok int_log_slates) as [E _].
    + intros k Hk _. assert (k = 0)%nat by lia. subst k. unfold pos_total, s_weight. simpl. lra.
    + rewrite E. do 2 f_equal. unfold pos_total, pos_count, s_weight. simpl. field.
  - assert (Hcr : certain_rows int_log 0 = 1).
    { unfold certain_rows, pos_total. simpl. destruct (Req_EM_T (1 / 2) 1); [lra|]. destruct (Req_EM_T 1 1); [lra|congruence]. }
    assert (Hpc : pos_count int_log 0 = 2) by (unfold pos_count; simpl; lra).
    destruct (C170_integer_value cast int_log [0; 1]%nat 1 (fun i => match i with O => 2 | _ => 0 end)%Z int_log_ok int_log_slates) as [E _].
    + reflexivity.
    + intros i _ _. cbn [sl_pos int_log]. rewrite Hcr. lra.
    + intros i _. cbn [sl_pos sl_r int_log]. rewrite Hcr, Hpc. destruct i; unfold towards_zero.
      * rewrite !Rabs_right by lra. lra.
      * replace (0 * 2 / 1) with 0 by field. rewrite Rabs_R0. lra.
    + rewrite E. do 2 f_equal. rewrite slate_mean_rows by auto using int_log_slates. simpl. destruct (Req_EM_T (1 / 2) 1); [lra|]. destruct (Req_EM_T 1 1); [lra|congruence].
Qed.

(** The garbage theorem's hypotheses: the same log with evaluation probabilities 1/2. *)
Example C170_garbage_example : let l := {| sl_n := 2; sl_id := fun i => i; sl_pos := fun _ => 0%nat; sl_r := fun _ => 1; sl_p := fun _ => 1; sl_pe := fun _ => 1 / 2 |} in
  sniips_int_value (fun _ => (- 2 ^ 63)%Z) 1 (s_ids l) (s_rew l) (s_pos l) (s_p l) (s_pe l) = Ok (Fin (IZR (- 2 ^ 63))).
Proof.
  intros l. assert (H : rows_ok l) by (constructor; cbn [sl_n sl_p sl_pe sl_id sl_pos l]; try lia; auto; intros; lra).
  destruct (C170_stochastic_garbage (fun _ => (- 2 ^ 63)%Z) l [0; 1]%nat 1 H int_log_slates) as [E _].
  - reflexivity.
  - intros i _. cbn [sl_pe l]. lra.
  - rewrite E. do 2 f_equal. set (g := IZR (- 2 ^ 63)). simpl. field.
Qed.
(** The gap theorem's hypotheses: evaluation probabilities 0 and 1. *)
Example C170_gap_example : let l := {| sl_n := 2; sl_id := fun i => i; sl_pos := fun _ => 0%nat; sl_r := fun _ => 1 / 4; sl_p := fun _ => 1; sl_pe := fun i => match i with O => 0 | _ => 1 end |} in
  rows_ok l /\ slates l [0; 1]%nat /\ (forall i, (i < sl_n l)%nat -> sl_p l i = 1) /\ (forall i, (i < sl_n l)%nat -> sl_pe l i = 0 \/ sl_pe l i = 1) /\
  (forall i, (i < sl_n l)%nat -> (sl_pos l i < 1)%nat -> 0 < certain_rows l (sl_pos l i)).
Proof.
  intros l. split; [|split; [exact int_log_slates|split; [reflexivity|split]]].
  - constructor; cbn [sl_n sl_p sl_pe sl_id sl_pos l]; try lia; auto; [intros; lra|]. intros [|i] _; lra.
  - intros [|i] _; simpl; auto.
  - intros i _ _. unfold certain_rows, pos_total. simpl. destruct (Req_EM_T 0 1); [lra|]. destruct (Req_EM_T 1 1); [lra|congruence].
Qed.

Print Assumptions C170_integer_value.
Print Assumptions C170_stochastic_garbage.
Print Assumptions C170_deterministic_gap.
Print Assumptions C170_dtype_changes_value.
