(** * L_Reg: lemmas about the reward, propensity and importance-weight models. *)

From Coq Require Import Reals List ZArith Lia Lra Bool.
From Verif Require Import Num NpList M_Utils M_Slate M_Multi M_Feedback M_Offline M_Reg S_Base S_Slate S_Reg L_Num L_Base
  L_Estimators L_Utils L_Slate L_Multi L_Offline P_Sim.
Import ListNotations.
Open Scope R_scope.

(** ** Indexing *)

Lemma map_nth_idx {A} (g : nat -> A) idx d : map g idx = tab (length idx) (fun j => g (nth j idx d)).
Proof.
  unfold tab. induction idx; simpl; auto. f_equal. rewrite <- seq_shift, map_map. exact IHidx.
Qed.
Lemma sel_idx (P : nat -> bool) idx d :
  map (fun j => nth j idx d) (sel (length idx) (fun j => P (nth j idx d))) = filter P idx.
Proof.
  unfold sel. induction idx; simpl; auto.
  rewrite <- seq_shift. destruct (P a); simpl; [f_equal|]; rewrite <- IHidx; clear IHidx;
    induction (seq 0 (length idx)); simpl; auto; destruct (P (nth a0 idx d)); simpl; congruence.
Qed.
Lemma take_tab {A} n (g : nat -> A) idx : (forall i, In i idx -> (i < n)%nat) -> take (tab n g) idx = Ok (map g idx).
Proof. intros H. apply mapM_Ok. intros i Hi. apply np_get_tab. auto. Qed.

Lemma put_loop {A} n (h g : nat -> A) idx : (forall i, In i idx -> (i < n)%nat) ->
  loopM (fun y iv => np_set y (Z.of_nat (fst iv)) (snd iv)) (combine idx (map h idx)) (tab n g) =
  Ok (tab n (fun i => if existsb (Nat.eqb i) idx then h i else g i)).
Proof.
  revert g. induction idx as [|k idx IH]; intros g H; simpl; auto.
  rewrite np_set_tab by (apply H; left; auto). simpl. rewrite IH by (intros; apply H; right; auto).
  f_equal. apply tab_ext. intros i Hi. destruct (Nat.eqb_spec i k) as [->|]; simpl; auto.
  destruct (existsb (Nat.eqb k) idx); auto.
Qed.
Lemma put_sel {A} n (h g : nat -> A) P :
  put (tab n g) (filter P (seq 0 n)) (map h (filter P (seq 0 n))) = Ok (tab n (fun i => if P i then h i else g i)).
Proof.
  unfold put. rewrite map_length, Nat.eqb_refl, put_loop.
  - f_equal. apply tab_ext. intros i Hi. destruct (existsb (Nat.eqb i) (filter P (seq 0 n))) eqn:E.
    + apply existsb_exists in E as (k & Hk & E). apply Nat.eqb_eq in E. subst k. apply filter_In in Hk as [_ ->]. auto.
    + destruct (P i) eqn:Ep; auto. exfalso.
      assert (X : existsb (Nat.eqb i) (filter P (seq 0 n)) = true); [|congruence].
      apply existsb_exists. exists i. split; [|apply Nat.eqb_refl]. apply filter_In. split; auto. apply in_seq. lia.
  - intros i Hi. apply filter_In in Hi as [Hi _]. apply in_seq in Hi. lia.
Qed.

Lemma mask_fill_tab {A} n (P : nat -> bool) (g h : nat -> A) :
  mask_fill (tab n P) (tab n g) (map h (sel n P)) = tab n (fun i => if P i then h i else g i).
Proof.
  unfold tab, sel. induction (seq 0 n); simpl; auto.
  destruct (P a); simpl; f_equal; auto.
Qed.
Lemma len_filter_id n (P : nat -> bool) : length (filter (fun b => b) (tab n P)) = length (sel n P).
Proof. unfold tab, sel. induction (seq 0 n); simpl; auto. destruct (P a); simpl; auto. Qed.
Lemma mask_put_tab {A} n (P : nat -> bool) (g h : nat -> A) :
  mask_put (tab n P) (tab n g) (map h (sel n P)) = Ok (tab n (fun i => if P i then h i else g i)).
Proof.
  unfold mask_put. rewrite !tab_length, Nat.eqb_refl. simpl. rewrite map_length, len_filter_id, Nat.eqb_refl, mask_fill_tab. auto.
Qed.

Lemma at_pos_tab n pos p : at_pos (tabZ n pos) p = tab n (fun i => Nat.eqb (pos i) p).
Proof.
  unfold at_pos, tabZ. rewrite map_tab. apply tab_ext. intros i Hi.
  destruct (Nat.eqb_spec (pos i) p); [subst; apply Z.eqb_refl|apply Z.eqb_neq; lia].
Qed.

Lemma features_map {D} (ac : nat -> list num) Kc (x : D -> list num) (a : D -> nat) (l : list D) :
  (forall d, In d l -> (a d < Kc)%nat) ->
  features (tab Kc ac) (map x l) (map (fun d => Z.of_nat (a d)) l) = Ok (map (fun d => x d ++ ac (a d)) l).
Proof.
  intros H. unfold features. rewrite mapM_map.
  rewrite (mapM_Ok _ (fun d => ac (a d))) by (intros d Hd; apply np_get_tab; auto).
  simpl. rewrite !map_length, Nat.eqb_refl. f_equal. induction l; simpl; auto. f_equal. apply IHl. intros; apply H; right; auto.
Qed.

Lemma bcast2_tab_1 {A B C} (f : A -> B -> C) n g b : (0 < n)%nat -> bcast2 f (tab n g) [b] = Ok (tab n (fun i => f (g i) b)).
Proof.
  intros Hn. unfold bcast2. rewrite tab_length. simpl length. destruct (Nat.eqb_spec n 1) as [->|N]; [reflexivity|].
  destruct n as [|[|n]]; try lia. simpl. do 3 f_equal. rewrite map_map. auto.
Qed.

(** ** Checks *)

Lemma feedback_ok n Kc (x : nat -> list num) a r ac pos p :
  (0 < n)%nat -> (forall i, (i < n)%nat -> (a i < Kc)%nat) ->
  (match p with None => True | Some q => exists v, q = tabF n v /\ forall i, (i < n)%nat -> 0 < v i end) ->
  (match pos with None => True | Some q => exists v, q = tabZ n v end) -> length r = n -> length ac = Kc ->
  check_bandit_feedback_inputs (tab n x) (tabZ n a) r None pos p (Some ac) = Ok tt.
Proof.
  intros Hn Ha Hp Hpos Hr Hac. apply (decides_Ok _ _ (C94_feedback_validator _ _ _ _ _ _ _)).
  unfold tabZ. rewrite !tab_length.
  assert (Ne : tabZ n a <> []) by (destruct n; [lia|]; discriminate).
  assert (R : forall b, (match b with None => True | Some z => (Z.of_nat Kc <= z)%Z end) -> in_range b (tabZ n a)).
  { intros b Hb. split; auto. apply Forall_forall. intros z Hz. unfold tabZ in Hz. apply In_tab in Hz as (i & Hi & <-). specialize (Ha i Hi). destruct b; [|lia]. lia. }
  split; [auto|]. split; [auto|]. split; [apply R; auto|]. split; [auto|]. split; [|split].
  - destruct p as [q|]; auto. destruct Hp as (v & -> & Hv). unfold tabF. rewrite tab_length. split; auto.
    apply Forall_forall. intros y Hy. apply In_tab in Hy as (i & Hi & <-). simpl. apply Rleb_false. specialize (Hv i Hi). lra.
  - destruct pos as [q|]; auto. destruct Hpos as (v & ->). unfold tabZ. rewrite tab_length. split; auto.
    apply Forall_forall. intros y Hy. apply In_tab in Hy as (i & Hi & <-). lia.
  - apply R. rewrite Hac. lia.
Qed.

Lemma fit_position_ok L n a pos arg l : (0 < n)%nat -> rl_n l = n -> rl_pos l = pos -> (forall i, (i < n)%nat -> (pos i < L)%nat) ->
  position_is L l arg -> fit_position L (tabZ n a) arg = Ok (tabZ n pos).
Proof.
  intros Hn <- <- HL [->|(H0 & [->|(-> & q & ->)])]; simpl.
  - destruct (Nat.eqb_spec L 1) as [->|N].
    + f_equal. unfold zzeros, tabZ. rewrite tab_length, repeat_tab. apply tab_ext. intros i Hi. specialize (HL i Hi). lia.
    + generalize (zmaxl_spec (tabZ (rl_n l) (rl_pos l))). destruct (zmaxl (tabZ (rl_n l) (rl_pos l))) as [M|e]; simpl.
      * intros (_ & Hin & _). unfold tabZ in Hin. apply In_tab in Hin as (i & Hi & <-). specialize (HL i Hi).
        rewrite (proj2 (Z.leb_gt _ _)) by lia. reflexivity.
      * intros [E _]. destruct (rl_n l); [lia|discriminate].
  - f_equal. unfold zzeros, tabZ. rewrite tab_length, repeat_tab. apply tab_ext. intros i Hi. rewrite H0; auto.
  - f_equal. unfold zzeros, tabZ. rewrite tab_length, repeat_tab. apply tab_ext. intros i Hi. rewrite H0; auto.
Qed.

Lemma shape_is_tab3 n K L (f : nat -> nat -> nat -> R) : (0 < n)%nat -> (0 < K)%nat -> shape_is (tab3F n K L f) n K L = true.
Proof.
  intros Hn HK. unfold shape_is. rewrite dim2_tab3, dim1_tab3 by auto. unfold tab3F. rewrite tab_length, !Nat.eqb_refl. reflexivity.
Qed.

Lemma allclose_policy n K L f : (0 < n)%nat -> (0 < K)%nat ->
  (forall i p, (i < n)%nat -> (p < L)%nat -> sumn K (fun a => f i a p) = 1) -> allclose1 (sum_axis1 (tab3F n K L f)) = true.
Proof.
  intros Hn HK H. rewrite sum_axis1_tab by auto. unfold allclose1, tab2F.
  apply forallb_tab. intros i Hi. unfold tabF. apply forallb_tab. intros s Hs.
  simpl. rewrite H by auto. apply Rleb_true. rewrite Rminus_diag_eq by auto. rewrite Rabs_R0. lra.
Qed.

(** ** RegressionModel.fit *)

Section Fit.
Context {M : Type}.
Variable rfit : M -> list (list num) -> list num -> option (list num) -> res M.

Definition fit_one (ac : nat -> list num) (m : fitting) (l : rlog) (idx : list nat) (p : nat) (mo : M) : res M :=
  match rounds_of l idx p with
  | [] => Err ValueError
  | _ => rfit mo (train_X ac l idx p) (train_y l idx p) (train_w m l idx p)
  end.

Lemma K_pos K L l : rlog_ok K L l -> (0 < K)%nat.
Proof. intros H. pose proof (ro_a _ _ _ H 0%nat (ro_n _ _ _ H)). lia. Qed.

Lemma reg_pscore_ok K L ac m l arg : rlog_ok K L l -> pscore_is K l arg ->
  reg_pscore (mkReg K L (tab K ac) m) (tabZ (rl_n l) (rl_a l)) arg = tabF (rl_n l) (rl_p l).
Proof.
  intros H [->|(-> & E)]; [reflexivity|]. unfold reg_pscore, tabZ. rewrite map_tab. unfold tabF. apply tab_ext. intros i Hi.
  rewrite E by auto. unfold nnat. cbn [rm_actions]. rewrite (ndiv_Fin 1 (INR K)); auto. apply INR_ne. pose proof (K_pos _ _ _ H). lia.
Qed.

Lemma reg_check_ok K L ac m full l d : rlog_ok K L l -> dist_is m K L l d ->
  reg_check_dist (mkReg K L (tab K ac) m) full (rl_n l) d = Ok tt.
Proof.
  intros H Hd. pose proof (K_pos _ _ _ H) as HK. pose proof (ro_n _ _ _ H) as Hn. unfold reg_check_dist. simpl.
  assert (E : m <> Normal -> d = Some (tab3F (rl_n l) K L (rl_pi l))) by (destruct Hd as [->|(-> & _)]; congruence).
  assert (A : forall d, raise_if (negb (shape_is (tab3F (rl_n l) K L (rl_pi l)) (rl_n l) K L)) ValueError;;;
     (if full then raise_if (negb (allclose1 (sum_axis1 (tab3F (rl_n l) K L (rl_pi l))))) ValueError else Ok tt) = d -> d = Ok tt).
  { intros q <-. rewrite shape_is_tab3 by auto. rewrite allclose_policy by (auto; apply (ro_pi _ _ _ H)). destruct full; reflexivity. }
  destruct m; auto; rewrite E by discriminate; apply (A _ eq_refl).
Qed.

Lemma reg_fit_at_ok K L ac m l d p mo : rlog_ok K L l -> dist_is m K L l d -> (p < L)%nat ->
  reg_fit_at rfit (mkReg K L (tab K ac) m) (tab (rl_n l) (rl_x l)) (tabZ (rl_n l) (rl_a l)) (tab (rl_n l) (rl_r l))
    (tabF (rl_n l) (rl_p l)) (tabZ (rl_n l) (rl_pos l)) d p mo = fit_one ac m l (all_rounds (rl_n l)) p mo.
Proof.
  intros H Hd Hp. pose proof (K_pos _ _ _ H) as HK. unfold reg_fit_at, fit_one. cbv zeta. rewrite at_pos_tab. cbn [rm_ac rm_method].
  rewrite mask_get_tab. unfold tabZ at 1. rewrite mask_get_tab. cbn [bind].
  change (sel (rl_n l) (fun i => Nat.eqb (rl_pos l i) p)) with (rounds_of l (all_rounds (rl_n l)) p).
  assert (HI : forall i, In i (rounds_of l (all_rounds (rl_n l)) p) -> (i < rl_n l)%nat).
  { intros i Hi. apply filter_In in Hi as [Hi _]. apply in_seq in Hi. lia. }
  rewrite (features_map ac K (rl_x l) (rl_a l)) by (intros i Hi; apply (ro_a _ _ _ H); auto).
  cbn [bind]. rewrite map_length. destruct (rounds_of l (all_rounds (rl_n l)) p) as [|i0 is] eqn:E; [reflexivity|].
  cbn [length Nat.eqb raise_if bind]. rewrite mask_get_tab. cbn [bind].
  change (sel (rl_n l) (fun i => Nat.eqb (rl_pos l i) p)) with (rounds_of l (all_rounds (rl_n l)) p).
  unfold train_X, train_y, train_w, row_of. rewrite E.
  assert (Hd' : m <> Normal -> d = Some (tab3F (rl_n l) K L (rl_pi l))) by (destruct Hd as [->|(-> & _)]; congruence).
  assert (F : fancy3 (tab3F (rl_n l) K L (rl_pi l)) (arange (length (tab (rl_n l) (rl_x l)))) (tabZ (rl_n l) (rl_a l)) [Z.of_nat p]
             = Ok (tabF (rl_n l) (fun i => rl_pi l i (rl_a l i) p))).
  { rewrite tab_length. transitivity (fancy3 (tab3F (rl_n l) K L (rl_pi l)) (arange (rl_n l)) (tabZ (rl_n l) (rl_a l)) (tabZ (rl_n l) (fun _ => p))).
    - unfold fancy3. destruct (bcast2_idx (arange (rl_n l)) (tabZ (rl_n l) (rl_a l))) as [b|] eqn:Eb; auto. simpl.
      assert (Lb : length b = rl_n l). { unfold bcast2_idx, tabZ in Eb. rewrite arange_tab, bcast2_tab in Eb. injection Eb as <-. apply tab_length. }
      rewrite (list_tab b (0%Z,0%Z)), Lb. unfold bcast2_idx. rewrite bcast2_tab_1 by apply (ro_n _ _ _ H). unfold tabZ. rewrite bcast2_tab. reflexivity.
    - apply fancy3_tab. apply (ro_a _ _ _ H). auto. }
  assert (Hps : forall i, In i (i0 :: is) -> rl_p l i <> 0).
  { intros i Hi. pose proof (ro_p _ _ _ H i (HI i Hi)). lra. }
  destruct m; [reflexivity| |]; rewrite Hd' by discriminate; rewrite F; cbn [bind]; unfold tabF; rewrite !mask_get_tab; cbn [bind];
    change (sel (rl_n l) (fun i => Nat.eqb (rl_pos l i) p)) with (rounds_of l (all_rounds (rl_n l)) p); rewrite E; unfold reg_weight.
  - rewrite bcast2_map. cbn [bind]. do 2 f_equal. apply map_ext_in. intros i Hi. rewrite ndiv_Fin; auto.
  - rewrite !map_map, bcast2_map. cbn [bind]. rewrite bcast2_map. cbn [bind]. do 2 f_equal. apply map_ext_in. intros i Hi.
    simpl nsub. unfold nsqr. simpl nmul. rewrite ndiv_Fin; auto.
Qed.

Lemma reg_fit_eq K L ac m l models parg posarg darg : rlog_ok K L l -> (0 < L)%nat ->
  pscore_is K l parg -> position_is L l posarg -> dist_is m K L l darg ->
  reg_fit rfit (mkReg K L (tab K ac) m) models (tab (rl_n l) (rl_x l)) (tabZ (rl_n l) (rl_a l)) (tab (rl_n l) (rl_r l)) parg posarg darg =
  mapM (fun pm => fit_one ac m l (all_rounds (rl_n l)) (fst pm) (snd pm)) (combine (seq 0 L) models).
Proof.
  intros H HL Hp Hq Hd. pose proof (K_pos _ _ _ H) as HK. unfold reg_fit.
  rewrite (feedback_ok _ K).
  - cbn [bind]. cbn [rm_len]. rewrite (fit_position_ok L _ _ (rl_pos l) _ l); auto; try apply H. cbn [bind].
    rewrite tab_length, reg_check_ok by auto. cbn [bind]. rewrite (reg_pscore_ok K L ac m) by auto.
    apply mapM_ext. intros [p mo] Hin. apply in_combine_l in Hin. apply in_seq in Hin. simpl. apply reg_fit_at_ok; auto. lia.
  - apply H.
  - apply H.
  - destruct Hp as [->|[-> _]]; auto. exists (rl_p l). split; auto. apply H.
  - destruct Hq as [->|(_ & [->|(_ & q & ->)])]; eauto.
  - apply tab_length.
  - apply tab_length.
Qed.
End Fit.

Lemma last_shift {A} (l : list A) a d : last (a :: l) d = last l a.
Proof. revert a d. induction l as [|b l IH]; intros a d; simpl; auto. destruct l; auto. exact (IH a d). Qed.

(** ** Sub-logs *)

Definition sub (l : rlog) (idx : list nat) : rlog :=
  let at_ j := nth j idx 0%nat in
  mkLog (length idx) (fun j => rl_x l (at_ j)) (fun j => rl_a l (at_ j)) (fun j => rl_r l (at_ j)) (fun j => rl_p l (at_ j))
    (fun j => rl_pos l (at_ j)) (fun j => rl_pi l (at_ j)).

Lemma sub_ok K L l idx : rlog_ok K L l -> idx <> [] -> (forall i, In i idx -> (i < rl_n l)%nat) -> rlog_ok K L (sub l idx).
Proof.
  intros H Hne HI. assert (HI' : forall j, (j < length idx)%nat -> (nth j idx 0 < rl_n l)%nat) by (intros j Hj; apply HI, nth_In, Hj).
  constructor; simpl; try (intros; apply H; auto). destruct idx; simpl; [congruence|lia].
Qed.
Lemma sub_rounds {A} (g : nat -> A) l idx p :
  map (fun j => g (nth j idx 0%nat)) (rounds_of (sub l idx) (all_rounds (length idx)) p) = map g (rounds_of l idx p).
Proof.
  rewrite <- (map_map (fun j => nth j idx 0%nat) g). f_equal.
  apply (sel_idx (fun i => Nat.eqb (rl_pos l i) p) idx 0%nat).
Qed.
Lemma sub_data ac m l idx p :
  train_X ac (sub l idx) (all_rounds (length idx)) p = train_X ac l idx p /\
  train_y (sub l idx) (all_rounds (length idx)) p = train_y l idx p /\
  train_w m (sub l idx) (all_rounds (length idx)) p = train_w m l idx p /\
  (rounds_of (sub l idx) (all_rounds (length idx)) p = [] <-> rounds_of l idx p = []).
Proof.
  unfold train_X, train_y, train_w, row_of. cbn [sub rl_x rl_a rl_r rl_p rl_pi].
  rewrite (sub_rounds (fun i => rl_x l i ++ ac (rl_a l i))), (sub_rounds (fun i => rl_r l i)).
  rewrite (sub_rounds (fun i => Fin (weight_of m (rl_pi l i (rl_a l i) p) (rl_p l i)))).
  split; [auto|]. split; [auto|]. split; [auto|].
  generalize (sub_rounds (fun i => i) l idx p).
  destruct (rounds_of (sub l idx) (all_rounds (length idx)) p); destruct (rounds_of l idx p); simpl; try discriminate; split; auto; discriminate.
Qed.

(** ** RegressionModel.predict and fit_predict *)

Section Predict.
Context {M : Type}.
Variable rfit : M -> list (list num) -> list num -> option (list num) -> res M.
Variable rpred : M -> list (list num) -> res (list num).
Variable f : M -> list num -> num.
Hypothesis Hpred : forall m X, X <> [] -> rpred m X = Ok (map (f m) X).

Lemma reg_predict_map K L ac m models (x : nat -> list num) idx : idx <> [] ->
  reg_predict rpred (mkReg K L (tab K ac) m) models (map x idx) =
  Ok (map (fun i => tab K (fun a => map (fun mo => f mo (x i ++ ac a)) models)) idx).
Proof.
  intros Hne. unfold reg_predict. cbv zeta. rewrite map_length. cbn [rm_ac rm_actions].
  rewrite (mapM_Ok _ (fun a => map (fun mo => map (fun i => f mo (x i ++ ac a)) idx) models)).
  - cbn [bind]. f_equal. rewrite (map_nth_idx _ idx 0%nat). unfold tab at 1. apply map_ext_in. intros j Hj. apply in_seq in Hj.
    unfold tab. rewrite map_map. apply map_ext. intros a. rewrite map_map. apply map_ext. intros mo. unfold nth_num.
    rewrite (nth_indep _ NaN (f mo (x 0%nat ++ ac a))) by (rewrite map_length; lia).
    rewrite (map_nth (fun i => f mo (x i ++ ac a)) idx 0%nat). auto.
  - intros a Ha. apply in_seq in Ha. apply mapM_Ok. intros mo _.
    replace (repeat (Z.of_nat a) (length idx)) with (map (fun _ : nat => Z.of_nat a) idx)
      by (clear; induction idx; simpl; congruence).
    rewrite (features_map ac K x (fun _ => a)) by (intros; lia). cbn [bind]. rewrite Hpred by (destruct idx; [congruence|discriminate]). cbn [bind].
    rewrite !map_length, Nat.eqb_refl. cbn [negb raise_if bind]. rewrite map_map. auto.
Qed.

Variable train : list (list num) -> list num -> option (list num) -> res M.
Hypothesis Hfit : forall m X y w, rfit m X y w = train X y w.

Lemma mapM_combine_fst {A B D} (g : A -> res B) (l : list A) (ms : list D) : length ms = length l ->
  mapM (fun pm => g (fst pm)) (combine l ms) = mapM g l.
Proof.
  revert ms. induction l; intros [|d ms] H; simpl in *; try discriminate; auto. rewrite IHl by lia. auto.
Qed.

(** Training of position [p] on the rounds [idx]. *)
Definition trained (ac : nat -> list num) (m : fitting) (l : rlog) (idx : list nat) (p : nat) : res M :=
  match rounds_of l idx p with
  | [] => Err ValueError
  | _ => train (train_X ac l idx p) (train_y l idx p) (train_w m l idx p)
  end.

Lemma reg_fit_fresh K L ac m l models parg posarg darg : rlog_ok K L l -> (0 < L)%nat -> length models = L ->
  pscore_is K l parg -> position_is L l posarg -> dist_is m K L l darg ->
  reg_fit rfit (mkReg K L (tab K ac) m) models (tab (rl_n l) (rl_x l)) (tabZ (rl_n l) (rl_a l)) (tab (rl_n l) (rl_r l)) parg posarg darg =
  mapM (trained ac m l (all_rounds (rl_n l))) (seq 0 L).
Proof.
  intros H HL Hlen Hp Hq Hd. rewrite reg_fit_eq by auto.
  rewrite (mapM_ext _ (fun pm => trained ac m l (all_rounds (rl_n l)) (fst pm))).
  - apply mapM_combine_fst. rewrite seq_length. auto.
  - intros pm _. unfold fit_one, trained. destruct (rounds_of l (all_rounds (rl_n l)) (fst pm)); auto.
Qed.

Lemma reg_fit_sub K L ac m l idx models darg : rlog_ok K L l -> (0 < L)%nat -> length models = L ->
  idx <> [] -> (forall i, In i idx -> (i < rl_n l)%nat) ->
  dist_is m K L (sub l idx) darg ->
  reg_fit rfit (mkReg K L (tab K ac) m) models (map (rl_x l) idx) (map (fun i => Z.of_nat (rl_a l i)) idx) (map (rl_r l) idx)
    (Some (map (fun i => Fin (rl_p l i)) idx)) (Some (map (fun i => Z.of_nat (rl_pos l i)) idx)) darg =
  mapM (trained ac m l idx) (seq 0 L).
Proof.
  intros H HL Hlen Hne HI Hd. rewrite !(map_nth_idx _ idx 0%nat).
  rewrite (reg_fit_fresh K L ac m (sub l idx)); auto.
  - apply mapM_ext. intros p _. unfold trained. change (rl_n (sub l idx)) with (length idx). destruct (sub_data ac m l idx p) as (-> & -> & -> & E).
    destruct (rounds_of (sub l idx) (all_rounds (length idx)) p) eqn:E1; destruct (rounds_of l idx p) eqn:E2; auto; exfalso;
      [assert (n :: l0 = []) by tauto|assert (n :: l0 = []) by tauto]; discriminate.
  - apply sub_ok; auto.
  - left. reflexivity.
  - left. reflexivity.
Qed.

(** The loop over the folds. *)
Definition filled K ac l fold (mods : nat -> list M) (j i : nat) : list (list num) :=
  if Nat.ltb (fold i) j then tab K (fun a => map (fun mo => f mo (row_of ac l i a)) (mods (fold i)))
  else [].

Lemma fold_step K L ac m l fold darg j models (g : nat -> list (list num)) : rlog_ok K L l -> (0 < L)%nat -> length models = L ->
  dist_is m K L l darg -> (exists i, (i < rl_n l)%nat /\ fold i <> j) -> (exists i, (i < rl_n l)%nat /\ fold i = j) ->
  (let tr := outside (rl_n l) fold j in
   let te := filter (fun i => Nat.eqb (fold i) j) (seq 0 (rl_n l)) in
      dist <- match darg with Some d => rmap Some (take d tr) | None => Ok None end ;;
      ctx <- take (tab (rl_n l) (rl_x l)) tr ;;
      act <- take (tabZ (rl_n l) (rl_a l)) tr ;;
      rew <- take (tab (rl_n l) (rl_r l)) tr ;;
      p <- take (tabF (rl_n l) (rl_p l)) tr ;;
      q <- take (tabZ (rl_n l) (rl_pos l)) tr ;;
      models' <- reg_fit rfit (mkReg K L (tab K ac) m) models ctx act rew (Some p) (Some q) dist ;;
      test <- take (tab (rl_n l) (rl_x l)) te ;;
      pred <- reg_predict rpred (mkReg K L (tab K ac) m) models' test ;;
      filled <- put (tab (rl_n l) g) te pred ;;
      Ok (models', filled)) =
  (models' <- mapM (trained ac m l (outside (rl_n l) fold j)) (seq 0 L) ;;
   Ok (models', tab (rl_n l) (fun i => if Nat.eqb (fold i) j then tab K (fun a => map (fun mo => f mo (row_of ac l i a)) models') else g i))).
Proof.
  intros H HL Hlen Hd (i0 & Hi0 & Hf) (i1 & Hi1 & Hf1). cbv zeta. set (tr := outside (rl_n l) fold j).
  assert (Itr : forall i, In i tr -> (i < rl_n l)%nat) by (intros i Hi; apply filter_In in Hi as [Hi _]; apply in_seq in Hi; lia).
  assert (Ntr : tr <> []).
  { assert (In i0 tr). { apply filter_In. split. apply in_seq. lia. apply negb_true_iff, Nat.eqb_neq. auto. } intros E. rewrite E in *. auto. }
  assert (D : exists d, match darg with Some d => rmap Some (take d tr) | None => Ok None end = Ok d /\ dist_is m K L (sub l tr) d).
  { destruct Hd as [->|(-> & [->|(d & -> & Ld)])].
    - unfold tab3F at 1. rewrite take_tab by auto. eexists. split; [reflexivity|]. left. rewrite (map_nth_idx _ tr 0%nat). reflexivity.
    - eexists. split; [reflexivity|]. right. auto.
    - rewrite (list_tab d []), Ld, take_tab by auto. eexists. split; [reflexivity|]. right. split; auto. right. eexists. split; [reflexivity|]. apply map_length. }
  destruct D as (d & -> & Hd'). cbn [bind]. unfold tabZ, tabF. rewrite !take_tab by auto. cbn [bind].
  rewrite reg_fit_sub by auto. destruct (mapM _ _) as [ms|e]; [|reflexivity]. cbn [bind].
  rewrite take_tab by (intros i Hi; apply filter_In in Hi as [Hi _]; apply in_seq in Hi; lia). cbn [bind].
  rewrite reg_predict_map. 2:{ assert (X : In i1 (filter (fun i => Nat.eqb (fold i) j) (seq 0 (rl_n l)))).
    { apply filter_In. split. apply in_seq. lia. apply Nat.eqb_eq. auto. } intros E. rewrite E in X. auto. }
  cbn [bind]. rewrite put_sel. reflexivity.
Qed.

(** Training of every fold. *)
Definition folds_trained ac m l fold k L : res (list (list M)) :=
  mapM (fun j => mapM (trained ac m l (outside (rl_n l) fold j)) (seq 0 L)) (seq 0 k).

Lemma folds_loop K L ac m l fold darg : rlog_ok K L l -> (0 < L)%nat -> dist_is m K L l darg -> forall js,
  (forall j, In j js -> (exists i, (i < rl_n l)%nat /\ fold i <> j) /\ exists i, (i < rl_n l)%nat /\ fold i = j) -> NoDup js -> forall models g, length models = L ->
  loopM (fun mq tt =>
      let tr := fst tt in
      dist <- match darg with Some d => rmap Some (take d tr) | None => Ok None end ;;
      ctx <- take (tab (rl_n l) (rl_x l)) tr ;;
      act <- take (tabZ (rl_n l) (rl_a l)) tr ;;
      rew <- take (tab (rl_n l) (rl_r l)) tr ;;
      p <- take (tabF (rl_n l) (rl_p l)) tr ;;
      q <- take (tabZ (rl_n l) (rl_pos l)) tr ;;
      models' <- reg_fit rfit (mkReg K L (tab K ac) m) (fst mq) ctx act rew (Some p) (Some q) dist ;;
      test <- take (tab (rl_n l) (rl_x l)) (snd tt) ;;
      pred <- reg_predict rpred (mkReg K L (tab K ac) m) models' test ;;
      filled <- put (snd mq) (snd tt) pred ;;
      Ok (models', filled))
    (map (fun j => (outside (rl_n l) fold j, filter (fun i => Nat.eqb (fold i) j) (seq 0 (rl_n l)))) js)
    (models, tab (rl_n l) g) =
  (mods <- mapM (fun j => mapM (trained ac m l (outside (rl_n l) fold j)) (seq 0 L)) js ;;
   Ok (last mods models,
       tab (rl_n l) (fun i => fold_right (fun jm rest => if Nat.eqb (fold i) (fst jm) then tab K (fun a => map (fun mo => f mo (row_of ac l i a)) (snd jm)) else rest)
                                (g i) (combine js mods)))).
Proof.
  intros H HL Hd js. induction js as [|j js IH]; intros Hj ND models g Hlen; [reflexivity|].
  cbn [map loopM mapM]. cbv zeta. cbn [fst snd].
  pose proof (fold_step K L ac m l fold darg j models g H HL Hlen Hd (proj1 (Hj j (or_introl eq_refl))) (proj2 (Hj j (or_introl eq_refl)))) as Es. cbv zeta in Es. rewrite Es. clear Es.
  destruct (mapM (trained ac m l (outside (rl_n l) fold j)) (seq 0 L)) as [ms|e] eqn:Em; [|reflexivity]. cbn [bind].
  apply mapM_length in Em. rewrite seq_length in Em. inversion ND; subst.
  cbv zeta in IH. rewrite IH by (auto; intros; apply Hj; right; auto). clear IH.
  destruct (mapM _ js) as [mods|e] eqn:Ej; [|reflexivity]. cbn [bind]. f_equal. f_equal.
  - symmetry. apply last_shift.
  - apply tab_ext. intros i Hi. cbn [combine fold_right fst snd]. apply mapM_length in Ej.
    destruct (Nat.eqb_spec (fold i) j) as [E|N]; [|reflexivity].
    assert (G : forall js' mods', ~ In j js' -> forall d, fold_right (fun jm rest => if Nat.eqb (fold i) (fst jm) then tab K (fun a => map (fun mo => f mo (row_of ac l i a)) (snd jm)) else rest) d (combine js' mods') = d).
    { clear - E. induction js'; intros [|mm mods'] Hn d; simpl; auto. rewrite IHjs' by (intros X; apply Hn; right; auto).
      rewrite (proj2 (Nat.eqb_neq _ _)); auto. intros X. apply Hn. left. congruence. }
    rewrite G by auto. reflexivity.
Qed.

Lemma fold_pick (A : Type) (mods : list A) (h : A -> list (list num)) j d d0 : (j < length mods)%nat ->
  fold_right (fun jm rest => if Nat.eqb j (fst jm) then h (snd jm) else rest) d0 (combine (seq 0 (length mods)) mods) = h (nth j mods d).
Proof.
  intros Hj.
  assert (G : forall ms s j, (j < length ms)%nat -> fold_right (fun jm rest => if Nat.eqb (s + j) (fst jm) then h (snd jm) else rest) d0 (combine (seq s (length ms)) ms) = h (nth j ms d)).
  { clear. induction ms; intros s j Hj; simpl in *; [lia|]. destruct (Nat.eqb_spec (s + j) s).
    - destruct j; [auto|lia].
    - destruct j; [lia|]. replace (s + S j)%nat with (S s + j)%nat by lia. apply IHms. lia. }
  apply (G mods 0%nat j Hj).
Qed.
End Predict.

(** ** Cross-fitting in general *)

Section Cross.
Context {S B : Type}.
Variable good : S -> Prop.
Variable fit : S -> list nat -> res S.
Variable pred : S -> list nat -> res (list B).
Variable n : nat.
Variable fold : nat -> nat.
Variable fresh : list nat -> S.
Variable h : S -> nat -> B.
Variables (js : list nat).
Hypothesis Hfit : forall s j, good s -> In j js -> fit s (outside n fold j) = Ok (fresh (outside n fold j)).
Hypothesis Hgood : forall j, In j js -> good (fresh (outside n fold j)).
Hypothesis Hpred : forall j, In j js -> pred (fresh (outside n fold j)) (inside n fold j) = Ok (map (h (fresh (outside n fold j))) (inside n fold j)).

Lemma cross_loop s g : good s ->
  loopM (fun mw tt => s' <- fit (fst mw) (fst tt) ;; w <- pred s' (snd tt) ;; v <- put (snd mw) (snd tt) w ;; Ok (s', v))
    (map (fun j => (outside n fold j, inside n fold j)) js) (s, tab n g) =
  Ok (last (map (fun j => fresh (outside n fold j)) js) s,
      tab n (fun i => if existsb (Nat.eqb (fold i)) js then h (fresh (outside n fold (fold i))) i else g i)).
Proof.
  revert s g. revert Hfit Hgood Hpred. induction js as [|j js' IH]; intros Hfit Hgood Hpred s g Hs; [reflexivity|].
  cbn [map loopM fst snd]. rewrite Hfit by (auto; left; auto). cbn [bind]. rewrite Hpred by (left; auto). cbn [bind].
  unfold inside at 1 2. rewrite put_sel. cbn [bind]. rewrite IH.
  - f_equal. f_equal.
    + symmetry. apply last_shift.
    + apply tab_ext. intros i Hi. cbn [existsb]. destruct (Nat.eqb_spec (fold i) j) as [->|N]; cbn [orb]; [|reflexivity].
      destruct (existsb (Nat.eqb j) js'); reflexivity.
  - intros; apply Hfit; auto; right; auto.
  - intros; apply Hgood; right; auto.
  - intros; apply Hpred; right; auto.
  - apply Hgood. left. auto.
Qed.
End Cross.

(** One fold whose prediction raises makes the whole call raise. *)
Lemma cross_loop_err {S B} (good : S -> Prop) (fit : S -> list nat -> res S) (pred : S -> list nat -> res (list B)) n fold
    (fresh : list nat -> S) (h : S -> nat -> B) e js :
  (forall s j, good s -> In j js -> fit s (outside n fold j) = Ok (fresh (outside n fold j))) ->
  (forall j, In j js -> good (fresh (outside n fold j))) ->
  (forall j, In j js -> pred (fresh (outside n fold j)) (inside n fold j) = Ok (map (h (fresh (outside n fold j))) (inside n fold j)) \/
                        pred (fresh (outside n fold j)) (inside n fold j) = Err e) ->
  (exists j, In j js /\ pred (fresh (outside n fold j)) (inside n fold j) = Err e) ->
  forall s g, good s ->
  loopM (fun mw tt => s' <- fit (fst mw) (fst tt) ;; w <- pred s' (snd tt) ;; v <- put (snd mw) (snd tt) w ;; Ok (s', v))
    (map (fun j => (outside n fold j, inside n fold j)) js) (s, tab n g) = Err e.
Proof.
  induction js as [|j js' IH]; intros Hfit Hgood Hpred (j0 & Hj0 & E0) s g Hs; [destruct Hj0|].
  cbn [map loopM fst snd]. rewrite Hfit by (auto; left; auto). cbn [bind].
  destruct (Hpred j (or_introl eq_refl)) as [E|E]; rewrite E; [|reflexivity]. cbn [bind].
  unfold inside at 1 2. rewrite put_sel. cbn [bind]. apply IH.
  - intros; apply Hfit; auto; right; auto.
  - intros; apply Hgood; right; auto.
  - intros; apply Hpred; right; auto.
  - destruct Hj0 as [->|Hj0]; [congruence|]. eauto.
  - apply Hgood. left. auto.
Qed.

Lemma loopM_ext {S T} (f g : S -> T -> res S) l : (forall s x, In x l -> f s x = g s x) -> forall s, loopM f l s = loopM g l s.
Proof.
  induction l as [|x l IH]; intros H s; [reflexivity|]. cbn [loopM]. rewrite (H s x) by (left; auto). destruct (g s x); [|reflexivity]. cbn [bind].
  apply IH. intros; apply H; right; auto.
Qed.

Lemma existsb_seq j k : (j < k)%nat -> existsb (Nat.eqb j) (seq 0 k) = true.
Proof. intros H. apply existsb_exists. exists j. split; [apply in_seq; lia|apply Nat.eqb_refl]. Qed.

Lemma feedback_ok0 n Kc (x : nat -> list num) a ac pos :
  (0 < n)%nat -> (forall i, (i < n)%nat -> (a i < Kc)%nat) ->
  (match pos with None => True | Some q => exists v, q = tabZ n v end) -> length ac = Kc ->
  check_bandit_feedback_inputs (tab n x) (tabZ n a) (repeat (Fin 0) (length (tabZ n a))) None pos None (Some ac) = Ok tt.
Proof. intros. apply (feedback_ok n Kc); auto. rewrite repeat_length. apply tab_length. Qed.

Lemma eye_tab k : eye k = tab k (fun i => tab k (fun j => nbool (Nat.eqb i j))). Proof. reflexivity. Qed.

(** ** PropensityScoreEstimator *)

Lemma csub_ok K L l idx : clog_ok K L l -> idx <> [] -> (forall i, In i idx -> (i < rl_n l)%nat) -> clog_ok K L (sub l idx).
Proof.
  intros H Hne HI. assert (HI' : forall j, (j < length idx)%nat -> (nth j idx 0 < rl_n l)%nat) by (intros j Hj; apply HI, nth_In, Hj).
  constructor; simpl; try (intros; apply H; auto). destruct idx; simpl; [congruence|lia].
Qed.

Section Propensity.
Context {C : Type}.
Variable cfit : C -> list (list num) -> list Z -> res C.
Variable cproba : C -> list (list num) -> res (list (list num)).
Variable ctrain : list (list num) -> list Z -> C.
Variable classes : C -> list Z.
Variable proba : C -> list num -> Z -> num.
Hypothesis HC : plain_classifier cfit cproba ctrain classes proba.

Lemma ps_fit_tab K L l models posarg : clog_ok K L l -> (0 < L)%nat -> length models = L -> position_is L l posarg ->
  ps_fit cfit K L models (tab (rl_n l) (rl_x l)) (tabZ (rl_n l) (rl_a l)) posarg =
  mapM (fun p => match rounds_of l (all_rounds (rl_n l)) p with [] => Err ValueError | _ => Ok (ps_model ctrain l (all_rounds (rl_n l)) p) end) (seq 0 L).
Proof.
  destruct HC as (Hf & _ & _). intros H HL Hm Hq. unfold ps_fit. rewrite (feedback_ok0 _ K); cbn [bind].
  - rewrite (fit_position_ok L _ _ (rl_pos l) _ l); auto; try apply H. cbn [bind].
    rewrite <- (mapM_combine_fst _ (seq 0 L) models) by (rewrite seq_length; auto). apply mapM_ext. intros [p m] _. cbv zeta. cbn [fst snd].
    rewrite at_pos_tab, mask_get_tab. cbn [bind]. rewrite map_length.
    change (sel (rl_n l) (fun i => Nat.eqb (rl_pos l i) p)) with (rounds_of l (all_rounds (rl_n l)) p).
    destruct (rounds_of l (all_rounds (rl_n l)) p) eqn:E; [reflexivity|]. cbn [length Nat.eqb raise_if bind].
    unfold tabZ. rewrite mask_get_tab. cbn [bind].
    change (sel (rl_n l) (fun i => Nat.eqb (rl_pos l i) p)) with (rounds_of l (all_rounds (rl_n l)) p). rewrite E.
    unfold ps_model. rewrite E. apply Hf. discriminate. rewrite !map_length. auto.
  - apply H.
  - apply H.
  - destruct Hq as [->|(_ & [->|(_ & q & ->)])]; eauto.
  - unfold eye. rewrite map_length, seq_length. auto.
Qed.

Lemma ps_fit_map K L l idx models : clog_ok K L l -> (0 < L)%nat -> length models = L -> idx <> [] -> (forall i, In i idx -> (i < rl_n l)%nat) ->
  ps_fit cfit K L models (map (rl_x l) idx) (map (fun i => Z.of_nat (rl_a l i)) idx) (Some (map (fun i => Z.of_nat (rl_pos l i)) idx)) =
  mapM (fun p => match rounds_of l idx p with [] => Err ValueError | _ => Ok (ps_model ctrain l idx p) end) (seq 0 L).
Proof.
  intros H HL Hm Hne HI. rewrite !(map_nth_idx _ idx 0%nat).
  pose proof (ps_fit_tab K L (sub l idx) models (Some (tabZ (length idx) (rl_pos (sub l idx))))) as E.
  etransitivity; [apply E; auto; [apply csub_ok; auto|left; reflexivity]|]. clear E. change (rl_n (sub l idx)) with (length idx).
  apply mapM_ext. intros p _. generalize (sub_rounds (fun i => i) l idx p). intros Er. unfold ps_model.
  destruct (rounds_of (sub l idx) (all_rounds (length idx)) p) eqn:E1; destruct (rounds_of l idx p) eqn:E2; try discriminate; auto.
  f_equal. rewrite <- E1, <- E2. f_equal.
  - apply (sub_rounds (fun i => rl_x l i)).
  - apply (sub_rounds (fun i => Z.of_nat (rl_a l i))).
Qed.

(** The value read for round [i] from the model of its position. *)
Definition ps_at (md : nat -> C) (l : rlog) (i : nat) : num :=
  proba (md (rl_pos l i)) (rl_x l i) (nth (rl_a l i) (classes (md (rl_pos l i))) 0%Z).
Definition in_columns (md : nat -> C) (l : rlog) (i : nat) : bool := Nat.ltb (rl_a l i) (length (classes (md (rl_pos l i)))).

Lemma pick_rows {D} (row : D -> list num) (a : D -> nat) (l : list D) :
  pick (map row l) (map (fun d => Z.of_nat (a d)) l) =
  if forallb (fun d => Nat.ltb (a d) (length (row d))) l then Ok (map (fun d => nth (a d) (row d) NaN) l) else Err IndexError.
Proof.
  unfold pick, bcast2_idx. rewrite bcast2_map. cbn [bind]. rewrite mapM_map. cbn [fst snd].
  induction l as [|d l IH]; [reflexivity|]. cbn [mapM forallb map].
  destruct (Nat.ltb_spec (a d) (length (row d))) as [Hlt|Hge].
  - rewrite (np_get_nth _ _ NaN) by auto. cbn [bind andb]. rewrite IH. destruct (forallb _ l); reflexivity.
  - cbn [andb]. unfold np_get. cbv zeta. rewrite (proj2 (Z.ltb_ge (Z.of_nat (a d)) 0)) by lia.
    destruct (Z.leb_spec 0 (Z.of_nat (a d))); destruct (Z.ltb_spec (Z.of_nat (a d)) (Z.of_nat (length (row d)))); try lia; reflexivity.
Qed.

Lemma rounds_lt l p i : In i (rounds_of l (all_rounds (rl_n l)) p) -> (i < rl_n l)%nat /\ rl_pos l i = p.
Proof. intros Hi. apply filter_In in Hi as [Hi E]. apply in_seq in Hi. apply Nat.eqb_eq in E. split; auto; lia. Qed.

Lemma ps_predict_tab L l (md : nat -> C) : (forall i, (i < rl_n l)%nat -> (rl_pos l i < L)%nat) ->
  ps_predict cproba L (tab L md) (tab (rl_n l) (rl_x l)) (tabZ (rl_n l) (rl_a l)) (Some (tabZ (rl_n l) (rl_pos l))) =
  if forallb (in_columns md l) (all_rounds (rl_n l)) then Ok (tab (rl_n l) (ps_at md l)) else Err IndexError.
Proof.
  destruct HC as (_ & _ & Hpr). intros HL. unfold ps_predict.
  set (body := fun y pm => _).
  assert (G : forall q, (q <= L)%nat ->
    loopM body (tab q (fun p => (p, md p))) (repeat (Fin 0) (length (tabZ (rl_n l) (rl_a l)))) =
    if forallb (fun i => negb (Nat.ltb (rl_pos l i) q) || in_columns md l i) (all_rounds (rl_n l))
    then Ok (tab (rl_n l) (fun i => if Nat.ltb (rl_pos l i) q then ps_at md l i else Fin 0)) else Err IndexError).
  { induction q; intros Hq.
    - simpl. unfold tabZ. rewrite tab_length, repeat_tab.
      replace (forallb (fun i : nat => true) (all_rounds (rl_n l))) with true by (symmetry; apply forallb_forall; auto). reflexivity.
    - rewrite tab_S, loopM_app, IHq by lia.
      destruct (forallb (fun i => negb (Nat.ltb (rl_pos l i) q) || in_columns md l i) (all_rounds (rl_n l))) eqn:Eq; cbn [bind].
      + cbn [loopM]. unfold body at 1. cbn [fst snd]. cbv zeta. rewrite at_pos_tab, mask_get_tab. cbn [bind].
        change (sel (rl_n l) (fun i => Nat.eqb (rl_pos l i) q)) with (rounds_of l (all_rounds (rl_n l)) q).
        assert (R : forallb (fun i => negb (Nat.ltb (rl_pos l i) (S q)) || in_columns md l i) (all_rounds (rl_n l)) =
                    forallb (fun d => Nat.ltb (rl_a l d) (length (map (proba (md q) (rl_x l d)) (classes (md q))))) (rounds_of l (all_rounds (rl_n l)) q)).
        { apply eq_true_iff_eq. rewrite !forallb_forall. rewrite forallb_forall in Eq. split; intros Hx i Hi.
          - pose proof (rounds_lt _ _ _ Hi) as [Hin Hip]. rewrite map_length. specialize (Hx i ltac:(apply in_seq; lia)).
            rewrite (proj2 (Nat.ltb_lt _ _)) in Hx by lia. simpl in Hx. unfold in_columns in Hx. rewrite Hip in Hx. auto.
          - specialize (Eq i Hi). destruct (Nat.ltb_spec (rl_pos l i) q).
            + rewrite (proj2 (Nat.ltb_lt _ _)) by lia. auto.
            + destruct (Nat.ltb_spec (rl_pos l i) (S q)); [|reflexivity]. simpl. unfold in_columns.
              assert (rl_pos l i = q) by lia. specialize (Hx i). rewrite map_length in Hx. replace (rl_pos l i) with q by auto. apply Hx.
              apply filter_In. split; auto. apply Nat.eqb_eq. auto. }
        rewrite R. clear R.
        assert (T : forall (b : bool), tab (rl_n l) (fun i => if Nat.eqb (rl_pos l i) q then ps_at md l i else if Nat.ltb (rl_pos l i) q then ps_at md l i else Fin 0) =
                    tab (rl_n l) (fun i => if Nat.ltb (rl_pos l i) (S q) then ps_at md l i else Fin 0)).
        { intros _. apply tab_ext. intros i Hi. destruct (Nat.eqb_spec (rl_pos l i) q), (Nat.ltb_spec (rl_pos l i) q), (Nat.ltb_spec (rl_pos l i) (S q)); auto; lia. }
        destruct (rounds_of l (all_rounds (rl_n l)) q) as [|i0 is] eqn:Er.
        * cbn [map length Nat.eqb forallb bind]. f_equal. rewrite <- (T true). apply tab_ext. intros i Hi.
          destruct (Nat.eqb_spec (rl_pos l i) q) as [E|]; auto. exfalso.
          assert (In i (rounds_of l (all_rounds (rl_n l)) q)). { apply filter_In. split. apply in_seq; lia. apply Nat.eqb_eq; auto. }
          rewrite Er in *. auto.
        * rewrite map_length. cbn [length Nat.eqb]. rewrite Hpr by discriminate. cbn [bind]. unfold tabZ. rewrite mask_get_tab. cbn [bind].
          change (sel (rl_n l) (fun i => Nat.eqb (rl_pos l i) q)) with (rounds_of l (all_rounds (rl_n l)) q). rewrite Er, map_map.
          rewrite (pick_rows (fun i => map (proba (md q) (rl_x l i)) (classes (md q))) (rl_a l)).
          destruct (forallb _ (i0 :: is)) eqn:Ef; cbn [bind]; [|reflexivity]. rewrite forallb_forall in Ef. rewrite <- Er in *.
          change (rounds_of l (all_rounds (rl_n l)) q) with (sel (rl_n l) (fun i => Nat.eqb (rl_pos l i) q)) at 1.
          rewrite mask_put_tab. cbn [bind]. f_equal. rewrite <- (T true). apply tab_ext. intros i Hi.
          destruct (Nat.eqb_spec (rl_pos l i) q) as [E|]; auto. unfold ps_at. rewrite E.
          assert (Hi' : In i (rounds_of l (all_rounds (rl_n l)) q)). { apply filter_In. split. apply in_seq; lia. apply Nat.eqb_eq; auto. }
          specialize (Ef i Hi'). apply Nat.ltb_lt in Ef. rewrite (nth_indep _ NaN (proba (md q) (rl_x l i) 0%Z)) by auto. apply map_nth.
      + destruct (forallb (fun i => negb (Nat.ltb (rl_pos l i) (S q)) || in_columns md l i) (all_rounds (rl_n l))) eqn:E2; auto. exfalso. rewrite forallb_forall in E2.
        assert (X : forallb (fun i => negb (Nat.ltb (rl_pos l i) q) || in_columns md l i) (all_rounds (rl_n l)) = true); [|congruence].
        apply forallb_forall. intros i Hi. specialize (E2 i Hi). destruct (Nat.ltb_spec (rl_pos l i) q); auto.
        rewrite (proj2 (Nat.ltb_lt _ _)) in E2 by lia. auto. }
  replace (combine (seq 0 L) (tab L md)) with (tab L (fun p => (p, md p))) by (unfold tab; generalize (seq 0 L); induction l0; simpl; congruence).
  rewrite G by auto.
  assert (B : forall i, In i (all_rounds (rl_n l)) -> Nat.ltb (rl_pos l i) L = true) by (intros i Hi; apply in_seq in Hi; apply Nat.ltb_lt, HL; lia).
  replace (forallb (fun i => negb (Nat.ltb (rl_pos l i) L) || in_columns md l i) (all_rounds (rl_n l))) with (forallb (in_columns md l) (all_rounds (rl_n l))).
  - destruct (forallb (in_columns md l) _); auto. f_equal. apply tab_ext. intros i Hi. rewrite B; auto. apply in_seq. lia.
  - apply eq_true_iff_eq. rewrite !forallb_forall. split; intros H i Hi; specialize (H i Hi); rewrite (B i Hi) in *; auto.
Qed.

Lemma ps_predict_map L l idx (md : nat -> C) : (forall i, In i idx -> (rl_pos l i < L)%nat) ->
  ps_predict cproba L (tab L md) (map (rl_x l) idx) (map (fun i => Z.of_nat (rl_a l i)) idx) (Some (map (fun i => Z.of_nat (rl_pos l i)) idx)) =
  if forallb (in_columns md l) idx then Ok (map (ps_at md l) idx) else Err IndexError.
Proof.
  intros HL. pose proof (ps_predict_tab L (sub l idx) md) as E. rewrite !(map_nth_idx _ idx 0%nat).
  etransitivity; [apply E; intros j Hj; apply HL, nth_In, Hj|].
  replace (forallb (in_columns md (sub l idx)) (all_rounds (rl_n (sub l idx)))) with (forallb (in_columns md l) idx); [reflexivity|].
  apply eq_true_iff_eq. rewrite !forallb_forall. split; intros H i Hi.
  - apply in_seq in Hi. apply (H (nth i idx 0%nat)). apply nth_In. simpl in Hi. lia.
  - apply (In_nth _ _ 0%nat) in Hi as (j & Hj & <-). apply (H j). apply in_seq. simpl. lia.
Qed.
End Propensity.
