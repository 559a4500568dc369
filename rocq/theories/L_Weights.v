(** * L_Weights: lemmas about the importance-weight estimator (M_Reg). *)

From Coq Require Import Reals List ZArith Lia Lra Bool.
From Verif Require Import Num NpList M_Utils M_Slate M_Multi M_Feedback M_Offline M_Reg S_Base S_Slate S_Reg L_Num L_Base
  L_Estimators L_Utils L_Slate L_Multi L_Offline L_Reg P_Sim.
Import ListNotations.
Open Scope R_scope.

Lemma list_as_map {A B} (eqd : forall a b : A, {a = b} + {a <> b}) (l : list A) (v : list B) (d : B) : NoDup l -> length v = length l ->
  exists h, map h l = v.
Proof.
  revert v. induction l as [|a l IH]; intros [|b v] Hn Hl; try discriminate.
  - exists (fun _ => d). reflexivity.
  - inversion Hn as [|? ? Ha Hn']; subst. destruct (IH v Hn') as (h & Eh). simpl in Hl; lia.
    exists (fun x => if eqd x a then b else h x). simpl. destruct (eqd a a); [|contradiction]. f_equal. rewrite <- Eh. apply map_ext_in.
    intros x Hx. destruct (eqd x a) as [->|]; auto. contradiction.
Qed.

Lemma dist_at_tab n K L f pos p : (p < L)%nat ->
  dist_at (tab3F n K L f) (tab n (fun i => Nat.eqb (pos i) p)) p =
  Ok (map (fun i => tabF K (fun a => f i a p)) (sel n (fun i => Nat.eqb (pos i) p))).
Proof.
  intros Hp. unfold dist_at, tab3F. rewrite mask_get_tab. cbn [bind]. rewrite mapM_map. apply mapM_Ok. intros i _.
  unfold tab2F. rewrite mapM_tab with (g := fun a => Fin (f i a p)). reflexivity. intros a Ha. unfold tabF. rewrite np_get_tab by auto. reflexivity.
Qed.

Section Weights.
Context {C : Type}.
Variable cfit : C -> list (list num) -> list Z -> res C.
Variable cproba : C -> list (list num) -> res (list (list num)).
Variable ctrain : list (list num) -> list Z -> C.
Variable classes : C -> list Z.
Variable proba : C -> list num -> Z -> num.
Hypothesis HC : plain_classifier cfit cproba ctrain classes proba.
Variables (m : iw_method) (K L : nat) (ac : nat -> list num) (draw : list (list num) -> res (list Z)) (sm : list (list num) -> list nat).
Hypothesis HD : plain_draw K draw sm.
Hypothesis HL : (0 < L)%nat.
Let conf := mkIw K L (tab K ac) m.

Lemma sampled_tab l : (forall i, (i < rl_n l)%nat -> (rl_pos l i < L)%nat) -> exists s,
  sampled_actions conf draw (rl_n l) (tabZ (rl_n l) (rl_pos l)) (tab3F (rl_n l) K L (rl_pi l)) = Ok (tabZ (rl_n l) s) /\
  (m = Sample -> forall p, (p < L)%nat ->
     map s (rounds_of l (all_rounds (rl_n l)) p) = sm (map (policy_row K l p) (rounds_of l (all_rounds (rl_n l)) p))).
Proof.
  intros HP. unfold sampled_actions. cbn [iw_meth conf]. destruct m.
  2:{ exists (fun _ => 0%nat). split; [|discriminate]. unfold zzeros, tabZ. rewrite repeat_tab. reflexivity. }
  cbn [iw_len conf]. set (body := fun s p => _).
  assert (G : forall q, (q <= L)%nat -> exists s, loopM body (seq 0 q) (zzeros (rl_n l)) = Ok (tabZ (rl_n l) s) /\
    forall p, (p < q)%nat -> map s (rounds_of l (all_rounds (rl_n l)) p) = sm (map (policy_row K l p) (rounds_of l (all_rounds (rl_n l)) p))).
  { induction q; intros Hq.
    - exists (fun _ => 0%nat). split; [|lia]. simpl. unfold zzeros, tabZ. rewrite repeat_tab. reflexivity.
    - destruct (IHq ltac:(lia)) as (s & E & Hs). rewrite seq_S, loopM_app, E. cbn [bind loopM plus]. unfold body at 1. cbv zeta.
      rewrite at_pos_tab, dist_at_tab by lia. cbn [bind].
      set (R := sel (rl_n l) (fun i => Nat.eqb (rl_pos l i) q)).
      change (map (fun i => tabF K (fun a => rl_pi l i a q)) R) with (map (policy_row K l q) R).
      destruct (HD (map (policy_row K l q) R)) as (Ed & Hlen & Hk).
      { intros r Hr. apply in_map_iff in Hr as (i & <- & _). apply tab_length. }
      rewrite Ed. cbn [bind]. rewrite map_length in Hlen.
      destruct (list_as_map Nat.eq_dec R (sm (map (policy_row K l q) R)) 0%nat) as (h & Eh); auto. apply NoDup_filter, seq_NoDup.
      exists (fun i => if Nat.eqb (rl_pos l i) q then h i else s i). split.
      + rewrite <- Eh, map_map. unfold tabZ, R. rewrite mask_put_tab. cbn [bind]. f_equal. apply tab_ext. intros i Hi.
        destruct (Nat.eqb (rl_pos l i) q); reflexivity.
      + intros p Hp. destruct (Nat.eq_dec p q) as [->|N].
        * change (rounds_of l (all_rounds (rl_n l)) q) with R. rewrite <- Eh. apply map_ext_in. intros i Hi. unfold R, sel in Hi.
          apply filter_In in Hi as [_ ->]. reflexivity.
        * rewrite <- Hs by lia. apply map_ext_in. intros i Hi. apply filter_In in Hi as [_ E1]. apply Nat.eqb_eq in E1.
          destruct (Nat.eqb_spec (rl_pos l i) q); [congruence|reflexivity]. }
  destruct (G L) as (s & E & Hs); auto. exists s. split; auto.
Qed.

Lemma combine_map_r {A B} (h : A -> B) l : combine l (map h l) = map (fun a => (a, h a)) l.
Proof. induction l; simpl; congruence. Qed.

Lemma side_length l idx p : length (policy_side m K ac sm l idx p) = length (rounds_of l idx p).
Proof.
  unfold policy_side. destruct m; rewrite map_length; auto. rewrite combine_length.
  destruct (HD (map (policy_row K l p) (rounds_of l idx p))) as (_ & -> & _).
  - intros r Hr. apply in_map_iff in Hr as (i & <- & _). apply tab_length.
  - rewrite map_length. lia.
Qed.

Lemma iw_fit_tab l models posarg : iwlog_ok K L l -> length models = L -> position_is L l posarg ->
  iw_fit cfit conf draw models (tab (rl_n l) (rl_x l)) (tabZ (rl_n l) (rl_a l)) (tab3F (rl_n l) K L (rl_pi l)) posarg =
  mapM (fun p => match rounds_of l (all_rounds (rl_n l)) p with [] => Err ValueError | _ => Ok (iw_model ctrain m K ac sm l (all_rounds (rl_n l)) p) end) (seq 0 L).
Proof.
  destruct HC as (Hf & _ & _). intros [H Hpi] Hm Hq. pose proof (co_n _ _ _ H) as Hn.
  assert (HK : (0 < K)%nat) by (pose proof (co_a _ _ _ H 0%nat Hn); lia).
  unfold iw_fit. cbn [iw_ac iw_len iw_actions conf]. rewrite (feedback_ok0 _ K); cbn [bind].
  2: apply H. 2: apply H. 2: destruct Hq as [->|(_ & [->|(_ & q & ->)])]; eauto. 2: apply tab_length.
  rewrite (fit_position_ok L _ _ (rl_pos l) _ l); auto; try apply H. cbn [bind].
  rewrite tab_length, shape_is_tab3, allclose_policy by auto. cbn [negb raise_if bind].
  destruct (sampled_tab l ltac:(apply H)) as (s & Es & Hs). rewrite Es. cbn [bind]. clear Es.
  rewrite <- (mapM_combine_fst _ (seq 0 L) models) by (rewrite seq_length; auto). apply mapM_ext. intros [p mo] Hin. cbv zeta. cbn [fst snd].
  assert (Hp : (p < L)%nat) by (apply in_combine_l in Hin; apply in_seq in Hin; lia).
  rewrite at_pos_tab, dist_at_tab, !mask_get_tab by auto. unfold tabZ. rewrite !mask_get_tab. cbn [bind].
  change (sel (rl_n l) (fun i => Nat.eqb (rl_pos l i) p)) with (rounds_of l (all_rounds (rl_n l)) p).
  set (R := rounds_of l (all_rounds (rl_n l)) p) in *.
  assert (HR : forall i, In i R -> (i < rl_n l)%nat) by (intros i Hi; apply filter_In in Hi as [Hi _]; apply in_seq in Hi; lia).
  unfold clf_train. cbn [iw_ac iw_meth conf]. rewrite (features_map ac K (rl_x l) (rl_a l)) by (intros; apply H; auto). cbn [bind].
  assert (E : match m with
       | Sample => features (tab K ac) (map (rl_x l) R) (map (fun i => Z.of_nat (s i)) R)
       | Raw => if (length (map (rl_x l) R) =? length (map (fun i => tabF K (fun a => rl_pi l i a p)) R))%nat
                then Ok (map (fun q => fst q ++ snd q) (combine (map (rl_x l) R) (map (fun i => tabF K (fun a => rl_pi l i a p)) R))) else Err ValueError
       end = Ok (policy_side m K ac sm l (all_rounds (rl_n l)) p)).
  { unfold policy_side. fold R. destruct m.
    - specialize (Hs eq_refl p Hp). rewrite features_map.
      + fold R in Hs. rewrite <- Hs, combine_map_r, map_map. reflexivity.
      + intros i Hi. destruct (HD (map (policy_row K l p) R)) as (_ & _ & Hk).
        * intros r Hr. apply in_map_iff in Hr as (i' & <- & _). apply tab_length.
        * apply Hk. fold R in Hs. rewrite <- Hs. apply in_map. auto.
    - rewrite !map_length, Nat.eqb_refl. f_equal. clear. induction R; simpl; [reflexivity|]. f_equal. apply IHR. }
  rewrite E. cbn [bind fst snd]. rewrite app_length, map_length, side_length. fold R.
  assert (F : R <> [] -> cfit mo (map (fun d => rl_x l d ++ ac (rl_a l d)) R ++ policy_side m K ac sm l (all_rounds (rl_n l)) p)
     (repeat 0%Z (length R) ++ repeat 1%Z (length R)) = Ok (iw_model ctrain m K ac sm l (all_rounds (rl_n l)) p)).
  { intros HR'. unfold iw_model. fold R. apply Hf.
    - destruct R; [congruence|discriminate].
    - rewrite !app_length, !repeat_length, map_length, side_length. reflexivity. }
  destruct R as [|i0 R'] eqn:ER; [reflexivity|]. rewrite <- ER in *. replace (length R + length R =? 0)%nat with false by (rewrite ER; reflexivity).
  cbn [raise_if bind]. apply F. rewrite ER. discriminate.
Qed.

Lemma iw_model_sub l idx p : iw_model ctrain m K ac sm (sub l idx) (all_rounds (length idx)) p = iw_model ctrain m K ac sm l idx p.
Proof.
  assert (E : map (fun j => nth j idx 0%nat) (rounds_of (sub l idx) (all_rounds (length idx)) p) = rounds_of l idx p).
  { pose proof (sub_rounds (fun i => i) l idx p) as E. rewrite map_id in E. exact E. }
  assert (El : length (rounds_of (sub l idx) (all_rounds (length idx)) p) = length (rounds_of l idx p)) by (rewrite <- E, map_length; auto).
  unfold iw_model. rewrite El. f_equal. f_equal.
  - apply (sub_rounds (fun i => row_of ac l i (rl_a l i))).
  - unfold policy_side. destruct m.
    + replace (map (policy_row K (sub l idx) p) (rounds_of (sub l idx) (all_rounds (length idx)) p)) with (map (policy_row K l p) (rounds_of l idx p)).
      * generalize (sm (map (policy_row K l p) (rounds_of l idx p))). intros v. rewrite <- E. clear.
        revert v. induction (rounds_of (sub l idx) (all_rounds (length idx)) p); intros [|x v]; simpl; auto. f_equal. auto.
      * symmetry. apply (sub_rounds (policy_row K l p)).
    + apply (sub_rounds (fun i => rl_x l i ++ policy_row K l p i)).
Qed.

Lemma iwsub_ok l idx : iwlog_ok K L l -> idx <> [] -> (forall i, In i idx -> (i < rl_n l)%nat) -> iwlog_ok K L (sub l idx).
Proof. intros [H Hp] Hne HI. split. apply csub_ok; auto. intros i p Hi. apply Hp. apply HI, nth_In, Hi. Qed.

Lemma iw_fit_map l idx models : iwlog_ok K L l -> length models = L -> idx <> [] -> (forall i, In i idx -> (i < rl_n l)%nat) ->
  iw_fit cfit conf draw models (map (rl_x l) idx) (map (fun i => Z.of_nat (rl_a l i)) idx) (map (fun i => tab2F K L (rl_pi l i)) idx)
    (Some (map (fun i => Z.of_nat (rl_pos l i)) idx)) =
  mapM (fun p => match rounds_of l idx p with [] => Err ValueError | _ => Ok (iw_model ctrain m K ac sm l idx p) end) (seq 0 L).
Proof.
  intros H Hm Hne HI. rewrite !(map_nth_idx _ idx 0%nat).
  pose proof (iw_fit_tab (sub l idx) models (Some (tabZ (length idx) (rl_pos (sub l idx))))) as E.
  etransitivity; [apply E; auto; [apply iwsub_ok; auto|left; reflexivity]|]. clear E. change (rl_n (sub l idx)) with (length idx).
  apply mapM_ext. intros p _. generalize (sub_rounds (fun i => i) l idx p). intros Er. rewrite iw_model_sub.
  destruct (rounds_of (sub l idx) (all_rounds (length idx)) p) eqn:E1; destruct (rounds_of l idx p) eqn:E2; try discriminate; auto.
Qed.

(** The label list of a trained classifier. *)
Lemma two_values u k1 k2 : (0 < k1)%nat -> (0 < k2)%nat -> sorted_values u (repeat 0%Z k1 ++ repeat 1%Z k2) -> u = [0; 1]%Z.
Proof.
  intros H1 H2 [Hs Hin].
  assert (I0 : In 0%Z u) by (apply Hin; apply in_or_app; left; destruct k1; [lia|left; auto]).
  assert (I1 : In 1%Z u) by (apply Hin; apply in_or_app; right; destruct k2; [lia|left; auto]).
  assert (B : forall z, In z u -> z = 0%Z \/ z = 1%Z).
  { intros z Hz. apply Hin, in_app_or in Hz as [Hz|Hz]; apply repeat_spec in Hz; auto. }
  destruct u as [|a [|b [|c u]]].
  - destruct I0.
  - destruct I0 as [->|[]], I1 as [H|[]]; discriminate.
  - specialize (Hs 0%nat 1%nat ltac:(simpl; lia)). cbn in Hs. destruct (B a) as [-> | ->], (B b) as [-> | ->]; simpl; auto; try lia; reflexivity.
  - pose proof (Hs 0%nat 1%nat ltac:(simpl; lia)) as Ha. pose proof (Hs 1%nat 2%nat ltac:(simpl; lia)) as Hb. cbn in Ha, Hb.
    destruct (B a), (B b), (B c); simpl; auto 6; lia.
Qed.
Lemma iw_classes l idx p : rounds_of l idx p <> [] -> classes (iw_model ctrain m K ac sm l idx p) = [0; 1]%Z.
Proof.
  intros H. destruct HC as (_ & Hs & _). eapply two_values; [| |apply Hs]; destruct (rounds_of l idx p); simpl; try congruence; lia.
Qed.

Lemma iw_predict_tab l (md : nat -> C) : (forall i, (i < rl_n l)%nat -> (rl_a l i < K /\ rl_pos l i < L)%nat) ->
  (forall p, (p < L)%nat -> classes (md p) = [0; 1]%Z) -> positions_covered L l (all_rounds (rl_n l)) ->
  iw_predict cproba conf (tab L md) (tab (rl_n l) (rl_x l)) (tabZ (rl_n l) (rl_a l)) (Some (tabZ (rl_n l) (rl_pos l))) =
  Ok (tab (rl_n l) (fun i => odds (proba (md (rl_pos l i)) (row_of ac l i (rl_a l i)) 1))).
Proof.
  destruct HC as (_ & _ & Hpr). intros HA Hcl Hcov. unfold iw_predict. cbn [iw_len iw_ac conf]. set (body := fun y pm => _).
  assert (G : forall q, (q <= L)%nat ->
    loopM body (tab q (fun p => (p, md p))) (repeat (Fin 0) (length (tabZ (rl_n l) (rl_a l)))) =
    Ok (tab (rl_n l) (fun i => if Nat.ltb (rl_pos l i) q then proba (md (rl_pos l i)) (row_of ac l i (rl_a l i)) 1 else Fin 0))).
  { induction q; intros Hq.
    - simpl. unfold tabZ. rewrite tab_length, repeat_tab. reflexivity.
    - rewrite tab_S, loopM_app, IHq by lia. cbn [bind loopM]. unfold body at 1. cbn [fst snd]. cbv zeta.
      rewrite at_pos_tab, mask_get_tab. unfold tabZ. rewrite mask_get_tab. cbn [bind].
      set (R := sel (rl_n l) (fun i => Nat.eqb (rl_pos l i) q)).
      assert (HR : forall i, In i R -> (i < rl_n l)%nat /\ rl_pos l i = q) by (intros i Hi; apply (rounds_lt l q i); exact Hi).
      rewrite (features_map ac K (rl_x l) (rl_a l)) by (intros i Hi; apply HA, HR, Hi). cbn [bind]. unfold proba1.
      rewrite Hpr. 2:{ specialize (Hcov q ltac:(lia)). change (rounds_of l (all_rounds (rl_n l)) q) with R in Hcov. destruct R; [congruence|discriminate]. }
      cbn [bind]. rewrite Hcl, map_map, mapM_map by lia.
      rewrite (mapM_Ok _ (fun i => proba (md q) (row_of ac l i (rl_a l i)) 1)) by (intros; reflexivity). cbn [bind].
      unfold R. rewrite mask_put_tab. cbn [bind]. f_equal. apply tab_ext. intros i Hi.
      destruct (Nat.eqb_spec (rl_pos l i) q) as [E|N].
      + rewrite E, (proj2 (Nat.ltb_lt _ _)) by lia. reflexivity.
      + destruct (Nat.ltb_spec (rl_pos l i) q), (Nat.ltb_spec (rl_pos l i) (S q)); auto; lia. }
  replace (combine (seq 0 L) (tab L md)) with (tab L (fun p => (p, md p))) by (unfold tab; generalize (seq 0 L); induction l0; simpl; congruence).
  rewrite G by auto. cbn [bind]. rewrite map_tab. f_equal. apply tab_ext. intros i Hi.
  rewrite (proj2 (Nat.ltb_lt _ _)) by (apply HA; auto). reflexivity.
Qed.

Lemma iw_predict_map l idx (md : nat -> C) : (forall i, In i idx -> (rl_a l i < K /\ rl_pos l i < L)%nat) ->
  (forall p, (p < L)%nat -> classes (md p) = [0; 1]%Z) -> positions_covered L l idx ->
  iw_predict cproba conf (tab L md) (map (rl_x l) idx) (map (fun i => Z.of_nat (rl_a l i)) idx) (Some (map (fun i => Z.of_nat (rl_pos l i)) idx)) =
  Ok (map (fun i => odds (proba (md (rl_pos l i)) (row_of ac l i (rl_a l i)) 1)) idx).
Proof.
  intros HA Hcl Hcov. rewrite !(map_nth_idx _ idx 0%nat).
  pose proof (iw_predict_tab (sub l idx) md) as E. etransitivity; [apply E; auto|reflexivity].
  - intros j Hj. apply HA, nth_In, Hj.
  - intros p Hp. specialize (Hcov p Hp). generalize (sub_rounds (fun i => i) l idx p). change (rl_n (sub l idx)) with (length idx).
    destruct (rounds_of (sub l idx) (all_rounds (length idx)) p); destruct (rounds_of l idx p); try discriminate; congruence.
Qed.

(** A position without rounds: the classifier is asked for the probabilities of no rows. *)
Lemma iw_predict_uncovered l (md : nat -> C) : (forall mo, cproba mo [] = Err ValueError) ->
  (forall i, (i < rl_n l)%nat -> (rl_a l i < K /\ rl_pos l i < L)%nat) ->
  (forall p, (p < L)%nat -> classes (md p) = [0; 1]%Z) -> ~ positions_covered L l (all_rounds (rl_n l)) ->
  iw_predict cproba conf (tab L md) (tab (rl_n l) (rl_x l)) (tabZ (rl_n l) (rl_a l)) (Some (tabZ (rl_n l) (rl_pos l))) = Err ValueError.
Proof.
  destruct HC as (_ & _ & Hpr). intros He HA Hcl Hcov. unfold iw_predict. cbn [iw_len iw_ac conf]. set (body := fun y pm => _).
  assert (G : forall q, (q <= L)%nat ->
    (exists g, loopM body (tab q (fun p => (p, md p))) (repeat (Fin 0) (length (tabZ (rl_n l) (rl_a l)))) = Ok (tab (rl_n l) g) /\
       forall p, (p < q)%nat -> rounds_of l (all_rounds (rl_n l)) p <> []) \/
    loopM body (tab q (fun p => (p, md p))) (repeat (Fin 0) (length (tabZ (rl_n l) (rl_a l)))) = Err ValueError).
  { induction q; intros Hq.
    - left. exists (fun _ => Fin 0). simpl. unfold tabZ. rewrite tab_length, repeat_tab. split; [reflexivity|lia].
    - destruct (IHq ltac:(lia)) as [(g & E & Hg)|E]; rewrite tab_S, loopM_app, E; [|right; reflexivity]. cbn [bind loopM]. unfold body. cbn [fst snd]. cbv zeta.
      rewrite at_pos_tab, mask_get_tab. unfold tabZ. rewrite mask_get_tab. cbn [bind].
      set (R := sel (rl_n l) (fun i => Nat.eqb (rl_pos l i) q)).
      assert (HR : forall i, In i R -> (i < rl_n l)%nat /\ rl_pos l i = q) by (intros i Hi; apply (rounds_lt l q i); exact Hi).
      rewrite (features_map ac K (rl_x l) (rl_a l)) by (intros i Hi; apply HA, HR, Hi). cbn [bind]. unfold proba1.
      destruct R as [|i0 R'] eqn:ER.
      + right. cbn [map]. rewrite He. reflexivity.
      + left. rewrite <- ER in *. rewrite Hpr by (rewrite ER; discriminate).
        cbn [bind]. rewrite Hcl, map_map, mapM_map by lia.
        rewrite (mapM_Ok _ (fun i => proba (md q) (row_of ac l i (rl_a l i)) 1)) by (intros; reflexivity). cbn [bind].
        eexists. split.
        * unfold R. rewrite mask_put_tab. cbn [bind]. reflexivity.
        * intros p Hp. destruct (Nat.eq_dec p q) as [->|]; [|apply Hg; lia]. change (rounds_of l (all_rounds (rl_n l)) q) with R. rewrite ER. discriminate. }
  replace (combine (seq 0 L) (tab L md)) with (tab L (fun p => (p, md p))) by (unfold tab; generalize (seq 0 L); induction l0; simpl; congruence).
  destruct (G L) as [(g & _ & Hg)|E]; auto. contradiction. rewrite E. reflexivity.
Qed.
Lemma iw_predict_uncovered_map l idx (md : nat -> C) : (forall mo, cproba mo [] = Err ValueError) ->
  (forall i, In i idx -> (rl_a l i < K /\ rl_pos l i < L)%nat) ->
  (forall p, (p < L)%nat -> classes (md p) = [0; 1]%Z) -> ~ positions_covered L l idx ->
  iw_predict cproba conf (tab L md) (map (rl_x l) idx) (map (fun i => Z.of_nat (rl_a l i)) idx) (Some (map (fun i => Z.of_nat (rl_pos l i)) idx)) =
  Err ValueError.
Proof.
  intros He HA Hcl Hcov. rewrite !(map_nth_idx _ idx 0%nat).
  pose proof (iw_predict_uncovered (sub l idx) md) as E. etransitivity; [apply E; auto|reflexivity].
  - intros j Hj. apply HA, nth_In, Hj.
  - intros H. apply Hcov. intros p Hp. specialize (H p Hp). revert H. generalize (sub_rounds (fun i => i) l idx p). change (rl_n (sub l idx)) with (length idx).
    destruct (rounds_of (sub l idx) (all_rounds (length idx)) p); destruct (rounds_of l idx p); try discriminate; congruence.
Qed.
End Weights.
