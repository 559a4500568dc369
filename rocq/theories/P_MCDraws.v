(** * P_MCDraws: property C158 (multi-class bandit logs over the generator's own randomness) *)

From Coq Require Import String Reals List ZArith Lia Lra Bool.
From Coquelicot Require Import Coquelicot.
From Verif Require Import Num NpList M_Utils M_Estimators M_Data S_Base S_Prob S_Estimators S_Env S_Robust S_Data S_Draws
  L_Num L_Base L_Utils L_Prob L_Estimators L_EstProps L_Unbiased L_Examples L_Data L_Draws P_Utils P_Estimators P_Data P_Draws P_DrawLaw P_DataMC P_Robust P_MultiDraws.
Import ListNotations.
Open Scope R_scope.

(** What an estimator returns on the logs generated from [n] uniform draws exists and averages to [v]. *)
Definition estimates1 {B : Type} (n : nat) (generate : (nat -> R) -> B) (est : B -> res num) (v : R) : Prop :=
  exists X, (forall us, unit_draws us -> est (generate us) = Ok (Fin (X us))) /\ uniform_mean n X v.

(** The fields of a log that the estimators read. *)
Definition mc_actions (b : list nat * list R * list (list R) * list R) : list Z := map Z.of_nat (fst (fst (fst b))).
Definition mc_rewards (b : list nat * list R * list (list R) * list R) : list num := map Fin (snd (fst (fst b))).
Definition mc_pscores (b : list nat * list R * list (list R) * list R) : list num := map Fin (snd b).

(** The log in terms of the draws: the behaviour policy does not depend on them. *)
Lemma mc_of_draws n K lab alpha df d argsort ne (ev pred : nat -> nat) g seed :
  proper_labels n K lab -> 0 <= alpha < 1 -> (0 <= df < Z.of_nat K)%Z -> mc_init (tabZ n lab) alpha df = Ok d ->
  sorts argsort -> (forall i, (i < ne)%nat -> (ev i < n)%nat /\ (pred i < K)%nat) ->
  exists (pi : nat -> nat -> R) (D : nat -> list nat),
    (forall i, (i < ne)%nat -> selected K (Z.to_nat df) (g i) (D i) /\
      (forall a, (a < K)%nat -> pi i a = if in_dec Nat.eq_dec a (D i) then 0 else mixture K alpha (pred i) a / (1 - sum_over (D i) (mixture K alpha (pred i)))) /\
      sumn K (pi i) = 1 /\ (forall a, (a < K)%nat -> ~ In a (D i) -> (1 - alpha) / INR K <= pi i a)) /\
    forall us, unit_draws us ->
      let act i := sample_action_row (tab K (pi i)) (us i) in
      mc_batch (fun _ => us) argsort d (tab ne ev) (tab ne pred) (tabR2 ne K g) seed
      = (tab ne act, tab ne (fun i => if Nat.eqb (act i) (lab (ev i)) then 1 else 0), tabR2 ne K pi, tab ne (fun i => pi i (act i))).
Proof.
  intros Hlab Ha Hdf Hinit Hs Hev.
  destruct (C61_batch n K lab alpha df d (fun _ _ => 0) argsort ne ev pred g seed) as (pi & act0 & D & E0 & H0); auto; [intros; lra|].
  exists pi, D. split; [intros i Hi; destruct (H0 i Hi) as (A1 & A2 & A3 & A4 & _); auto|].
  intros us Hus act.
  destruct (C61_batch n K lab alpha df d (fun _ => us) argsort ne ev pred g seed) as (pi' & act' & D' & E & H'); auto; [intros i; specialize (Hus i); lra|].
  assert (Ep : tabR2 ne K pi' = tabR2 ne K pi).
  { change (tabR2 ne K pi') with (snd (fst (tab ne act', tab ne (fun i => if Nat.eqb (act' i) (lab (ev i)) then 1 else 0), tabR2 ne K pi', tab ne (fun i => pi' i (act' i))))).
    change (tabR2 ne K pi) with (snd (fst (tab ne act0, tab ne (fun i => if Nat.eqb (act0 i) (lab (ev i)) then 1 else 0), tabR2 ne K pi, tab ne (fun i => pi i (act0 i))))).
    rewrite <- E, <- E0. reflexivity. }
  assert (Ex : forall i a, (i < ne)%nat -> (a < K)%nat -> pi' i a = pi i a).
  { intros i a Hi Haa. unfold tabR2 in Ep. assert (Er := tab_inj _ _ _ Ep i Hi). apply (tab_inj _ _ _ Er a Haa). }
  assert (HK : (0 < K)%nat) by lia.
  assert (EA : forall i, (i < ne)%nat -> act' i = act i).
  { intros i Hi. destruct (H' i Hi) as (_ & _ & _ & _ & _ & _ & A). 
    assert (P0 : forall a, (a < K)%nat -> 0 <= pi i a).
    { intros a Haa. destruct (H0 i Hi) as (_ & Q1 & _ & Q2 & _). destruct (in_dec Nat.eq_dec a (D i)) as [I|I]; [rewrite Q1 by auto; destruct (in_dec Nat.eq_dec a (D i)); [lra|tauto]|].
      eapply Rle_trans; [|apply (Q2 a Haa I)]. apply Rmult_le_pos; [lra|left; apply Rinv_0_lt_compat, INR_pos; lia]. }
    assert (P1 : sumn K (pi i) = 1) by (apply (H0 i Hi)).
    assert (HR : Rsum (tab K (pi i)) = 1).
    { rewrite <- P1. rewrite <- (firstn_sum K (pi i) K) by lia. rewrite firstn_all2 by (rewrite tab_length; lia). reflexivity. }
    assert (B : (act i < K)%nat) by (apply sampled_action; auto; specialize (Hus i); lra).
    apply A; auto. destruct (sample_row_spec (tab K (pi i)) (us i)) as (B1 & B2 & B3).
    - intros v Hv. apply In_tab in Hv as (b & Hb & <-). auto.
    - rewrite HR. specialize (Hus i). lra.
    - fold (act i) in B1, B2, B3. rewrite !firstn_sum in B2 by lia. cbn [sumn] in B2.
      rewrite (sumn_ext (act i) (pi' i) (pi i)) by (intros; apply Ex; lia || auto; lia). rewrite Ex by auto. exact B2. }
  rewrite E. rewrite Ep. rewrite (tab_ext ne act' act EA).
  f_equal; [f_equal; f_equal|].
  - apply tab_ext. intros i Hi. rewrite EA by auto. reflexivity.
  - apply tab_ext. intros i Hi. rewrite EA by auto. apply Ex; auto.
    rewrite <- EA by auto. apply (H' i Hi).
Qed.

Theorem C158_draws : forall n K lab alpha df d argsort ne (ev pred : nat -> nat) g seed,
  proper_labels n K lab -> 0 <= alpha < 1 -> (0 <= df < Z.of_nat K)%Z -> mc_init (tabZ n lab) alpha df = Ok d ->
  sorts argsort -> (forall i, (i < ne)%nat -> (ev i < n)%nat /\ (pred i < K)%nat) -> (0 < ne)%nat ->
  let generate us := mc_batch (fun _ => us) argsort d (tab ne ev) (tab ne pred) (tabR2 ne K g) seed in
  exists (pi : nat -> nat -> R) (D : nat -> list nat),
    (forall i, (i < ne)%nat -> selected K (Z.to_nat df) (g i) (D i) /\
      (forall a, (a < K)%nat -> pi i a = if in_dec Nat.eq_dec a (D i) then 0 else mixture K alpha (pred i) a / (1 - sum_over (D i) (mixture K alpha (pred i)))) /\
      sumn K (pi i) = 1) /\
    (** the logged actions are independent draws from the behaviour policy *)
    (forall F, uniform_mean ne (fun us => F (fst (fst (fst (generate us))))) (expect (dprod ne (fun i => dtab K (pi i))) F)) /\
    forall pe, (forall i a, (i < ne)%nat -> (a < K)%nat -> 0 <= pe i a) -> (forall i, (i < ne)%nat -> sumn K (pe i) = 1) ->
    let dist := tab3F ne K 1 (fun i a _ => pe i a) in
    let ipw b := ipw_value PInf false (mc_rewards b) (mc_actions b) dist (Some (mc_pscores b)) None None in
    let dr qh b := dr_value PInf false (mc_rewards b) (mc_actions b) dist (tab3F ne K 1 (fun i a _ => qh i a)) (Some (mc_pscores b)) None None in
    (** IPW loses the rounds whose label cannot be logged; DR uses the prediction for actions that cannot be logged *)
    estimates1 ne generate ipw (avg ne (fun i => if in_dec Nat.eq_dec (lab (ev i)) (D i) then 0 else pe i (lab (ev i)))) /\
    (forall qh, estimates1 ne generate (dr qh)
       (avg ne (fun i => sumn K (fun a => pe i a * if in_dec Nat.eq_dec a (D i) then qh i a else if Nat.eqb a (lab (ev i)) then 1 else 0)))) /\
    (** without deficient actions both average to the ground truth the dataset reports *)
    (df = 0%Z -> exists v, mc_ground_truth d (tab ne ev) dist = Ok (Fin v) /\ estimates1 ne generate ipw v /\ forall qh, estimates1 ne generate (dr qh) v).
Proof.
  intros n K lab alpha df d argsort ne ev pred g seed Hlab Ha Hdf Hinit Hs Hev Hne generate.
  destruct (mc_of_draws n K lab alpha df d argsort ne ev pred g seed Hlab Ha Hdf Hinit Hs Hev) as (pi & D & HP & HB).
  exists pi, D. split; [intros i Hi; destruct (HP i Hi) as (A1 & A2 & A3 & _); auto|].
  assert (P1 : forall i, (i < ne)%nat -> sumn K (pi i) = 1) by (intros i Hi; apply HP; auto).
  assert (PP : forall i a, (i < ne)%nat -> (a < K)%nat -> if in_dec Nat.eq_dec a (D i) then pi i a = 0 else 0 < pi i a).
  { intros i a Hi Haa. destruct (HP i Hi) as (_ & Q1 & _ & Q2). specialize (Q1 a Haa). destruct (in_dec Nat.eq_dec a (D i)) as [I|I]; [auto|].
    eapply Rlt_le_trans; [|apply (Q2 a Haa I)]. apply Rmult_lt_0_compat; [lra|apply Rinv_0_lt_compat, INR_pos; lia]. }
  assert (P0 : forall i a, (i < ne)%nat -> (a < K)%nat -> 0 <= pi i a).
  { intros i a Hi Haa. specialize (PP i a Hi Haa). destruct (in_dec Nat.eq_dec a (D i)); lra. }
  set (act := fun (us : nat -> R) i => sample_action_row (tab K (pi i)) (us i)).
  assert (HS : forall i (f : nat -> R), (i < ne)%nat -> is_RInt (fun u => f (sample_action_row (tab K (pi i)) u)) 0 1 (expect (dtab K (pi i)) f)).
  { intros i f Hi. rewrite expect_dtab. rewrite (sumn_ext _ (fun a => f a * pi i a) (fun a => pi i a * f a)) by (intros; ring). apply sampler_mean; auto. }
  split.
  { intros F. eapply mean_ext; [|apply (mean_dprod ne (fun i => dtab K (pi i)) (fun i u => sample_action_row (tab K (pi i)) u) F); auto].
    intros us Hus. unfold generate. cbv beta. specialize (HB us Hus). cbv zeta in HB. rewrite HB. reflexivity. }
  intros pe E0 E1 dist ipw dr.
  set (m := fun i a => if Nat.eqb a (lab (ev i)) then 1 else 0 : R).
  assert (Hq : forall i a, (i < ne)%nat -> (a < K)%nat -> 0 <= m i a <= 1) by (intros; unfold m; destruct (Nat.eqb _ _); lra).
  set (e := fixed_rounds ne K pi pe m). assert (He : env_ok e) by (apply fixed_rounds_ok; auto).
  set (log := fun us => tab ne (fun i => (i, act us i, m i (act us i)))).
  assert (HA : forall us, unit_draws us -> forall i, (i < ne)%nat -> (act us i < K)%nat /\ 0 < pi i (act us i)).
  { intros us Hus i Hi. apply sampled_action; auto. specialize (Hus i). lra. }
  assert (HI : forall us, unit_draws us -> exists p, In (log us, p) (log_dist e) /\ p <> 0).
  { intros us Hus. apply In_dprod. intros i Hi. destruct (HA us Hus i Hi) as [A1 A2]. unfold round_dist, e, fixed_rounds. cbn [ev_ctx ev_K ev_pb ev_rd ev_pos].
    assert (HR : exists q, In (m i (act us i), q) [(1, m i (act us i)); (0, 1 - m i (act us i))] /\ q <> 0).
    { unfold m. destruct (Nat.eqb (act us i) (lab (ev i))); [exists 1; split; [left; reflexivity|lra]|exists (1 - 0); split; [right; left; reflexivity|lra]]. }
    destruct HR as (q & Hq' & Nq). exists (1 * (pi i (act us i) * q)). split; [|apply Rmult_integral_contrapositive; split; [lra|apply Rmult_integral_contrapositive; split; [lra|auto]]].
    apply (In_dbind _ _ i 1); [left; reflexivity|]. apply (In_dbind _ _ (act us i) (pi i (act us i))).
    + unfold dtab. apply In_tab. exists (act us i). rewrite (clamp_round ne i Hi). auto.
    + unfold dmap. apply in_map_iff. exists (m i (act us i), q). rewrite (clamp_round ne i Hi). rewrite (proj2 (Nat.ltb_lt _ _) A1). auto. }
  assert (HU : forall F, uniform_mean ne (fun us => F (log us)) (expect (log_dist e) F)).
  { intros F. assert (EE : expect (log_dist e) F = expect (dprod ne (fun i => dmap (fun a => (i, a, m i a)) (dtab K (pi i)))) F).
    { unfold log_dist. cbn [e fixed_rounds ev_n]. apply dprod_ext. intros i gg Hi. unfold round_dist, e, fixed_rounds. cbn [ev_ctx ev_K ev_pb ev_rd ev_pos]. rewrite expect_dbind.
      cbn [expect fold_right fst snd]. rewrite (clamp_round ne i Hi). rewrite Rmult_1_r, Rplus_0_r.
      rewrite expect_dbind, expect_dmap, !expect_dtab. apply sumn_ext. intros a Haa. rewrite expect_dmap. rewrite (proj2 (Nat.ltb_lt _ _) Haa). cbn [expect fold_right fst snd].
      f_equal. unfold m. destruct (Nat.eqb a (lab (ev i))); ring. }
    rewrite EE. apply (mean_dprod ne (fun i => dmap (fun a => (i, a, m i a)) (dtab K (pi i))) (fun i u => (i, sample_action_row (tab K (pi i)) u, m i (sample_action_row (tab K (pi i)) u))) F).
    intros i gg Hi. rewrite expect_dmap. apply (HS i (fun a => gg (i, a, m i a)) Hi). }
  assert (HV : forall us (qh : nat -> nat -> R), unit_draws us -> let l := log_of e (fun x _ a => pi (Nat.min x (ne - 1)) a) (fun x a _ => qh x a) (log us) in
     rewards l = mc_rewards (generate us) /\ actions l = mc_actions (generate us) /\ pscores l = mc_pscores (generate us) /\ policy l = dist /\ model l = tab3F ne K 1 (fun i a _ => qh i a)).
  { intros us qh Hus l. unfold generate. specialize (HB us Hus). cbv zeta in HB. rewrite HB. unfold mc_rewards, mc_actions, mc_pscores. cbn [fst snd].
    assert (Nth : forall i, (i < ne)%nat -> nth_error (log us) i = Some (i, act us i, m i (act us i))).
    { intros i Hi. unfold log. rewrite nth_error_tab by auto. reflexivity. }
    unfold rewards, actions, pscores, policy, model, l, log_of, e, fixed_rounds, dist, tabF, tabZ, tab3F. cbn [lg_n lg_r lg_a lg_p lg_K lg_L lg_pi lg_q ev_n ev_K ev_L ev_pos ev_pb ev_pe].
    rewrite !map_tab. split; [|split; [|split; [|split]]]; apply tab_ext; intros i Hi; rewrite (Nth i Hi), ?(clamp_round ne i Hi); reflexivity. }
  assert (TR : forall (f : list (nat * nat * R) -> res num) est x, expects (log_dist e) f x ->
     (forall us, unit_draws us -> est (generate us) = f (log us)) -> estimates1 ne generate est x).
  { intros f est x (gf & Hg & Hx) Hest. exists (fun us => gf (log us)). split.
    - intros us Hus. rewrite Hest by auto. destruct (HI us Hus) as (p & Hp & Np). eapply Hg; eauto.
    - rewrite <- Hx. apply HU. }
  assert (PA : forall pt qh o, position_arg (log_of e pt qh o) None) by (intros; right; split; [reflexivity|]; split; [reflexivity|intros; reflexivity]).
  assert (PS : forall pt qh o, pscore_arg (log_of e pt qh o) false (Some (pscores (log_of e pt qh o))) None) by reflexivity.
  set (table := fun (x s a : nat) => pi (Nat.min x (ne - 1)) a).
  assert (Hu : usable e table) by (intros x s a Haa; unfold table, e, fixed_rounds; cbn [ev_pb]; auto).
  assert (Hpt : forall i a, (i < ne)%nat -> (a < K)%nat -> 0 < pi i a -> 0 < pi i a) by auto.
  assert (Ratio : forall i a, (i < ne)%nat -> (a < K)%nat -> pi i a / pi i a = if in_dec Nat.eq_dec a (D i) then 0 else 1).
  { intros i a Hi Haa. specialize (PP i a Hi Haa). destruct (in_dec Nat.eq_dec a (D i)); [rewrite PP; unfold Rdiv; ring|field; lra]. }
  assert (Hl : forall i, (i < ne)%nat -> (lab (ev i) < K)%nat) by (intros i Hi; apply Hlab; apply Hev; auto).
  assert (IPW : estimates1 ne generate ipw (avg ne (fun i => if in_dec Nat.eq_dec (lab (ev i)) (D i) then 0 else pe i (lab (ev i))))).
  { eapply TR.
    - eapply eq_ind; [apply (C151_ipw_bias nat e table (fun _ _ _ => 0) false (fun o => Some (pscores (log_of e table (fun _ _ _ => 0) o))) (fun _ => None) None He Hu); auto|].
      unfold e, table. rewrite (proj2 (fixed_rounds_errors ne K pi pe m pi (fun _ _ => 0) Hne Hpt)). apply avg_ext. intros i Hi. rewrite (sumn_term K _ (lab (ev i))); auto.
      + rewrite Ratio by auto. unfold m. rewrite Nat.eqb_refl. destruct (in_dec Nat.eq_dec (lab (ev i)) (D i)); ring.
      + intros a Haa Hna. unfold m. destruct (Nat.eqb_spec a (lab (ev i))); [congruence|ring].
    - intros us Hus. destruct (HV us (fun _ _ => 0) Hus) as (V1 & V2 & V3 & V4 & _). cbv zeta. unfold ipw, table. rewrite V1, V2, V3, V4. reflexivity. }
  assert (DR : forall qh, estimates1 ne generate (dr qh)
     (avg ne (fun i => sumn K (fun a => pe i a * if in_dec Nat.eq_dec a (D i) then qh i a else if Nat.eqb a (lab (ev i)) then 1 else 0)))).
  { intros qh. eapply TR.
    - eapply eq_ind; [apply (C151_dr_bias nat e table (fun x a _ => qh x a) false (fun o => Some (pscores (log_of e table (fun x a _ => qh x a) o))) (fun _ => None) None He Hu); auto|].
      unfold e, table. rewrite (proj1 (fixed_rounds_errors ne K pi pe m pi qh Hne Hpt)). apply avg_ext. intros i Hi. apply sumn_ext. intros a Haa. f_equal.
      rewrite Ratio by auto. unfold m. destruct (in_dec Nat.eq_dec a (D i)); ring.
    - intros us Hus. destruct (HV us qh Hus) as (V1 & V2 & V3 & V4 & V5). cbv zeta. unfold dr, table. rewrite V1, V2, V3, V4, V5. reflexivity. }
  split; [exact IPW|]. split; [exact DR|].
  intros Edf. exists (avg ne (fun i => pe i (lab (ev i)))).
  assert (DN : forall i a, (i < ne)%nat -> ~ In a (D i)).
  { intros i a Hi. destruct (HP i Hi) as ((_ & LD & _) & _). rewrite Edf in LD. destruct (D i); [intros []|cbn in LD; lia]. }
  split; [|split].
  - apply (C61_ground_truth n K lab alpha df d ne ne ev (fun i a _ => pe i a) Hlab Ha Hdf Hinit (fun i Hi => proj1 (Hev i Hi)) Hne).
  - eapply eq_ind; [exact IPW|]. apply avg_ext. intros i Hi. destruct (in_dec Nat.eq_dec (lab (ev i)) (D i)) as [I|I]; [exfalso; eapply DN; eauto|reflexivity].
  - intros qh. eapply eq_ind; [exact (DR qh)|]. apply avg_ext. intros i Hi. rewrite (sumn_term K _ (lab (ev i))); auto.
    + destruct (in_dec Nat.eq_dec (lab (ev i)) (D i)) as [I|I]; [exfalso; eapply DN; eauto|]. rewrite Nat.eqb_refl. ring.
    + intros a Haa Hna. destruct (in_dec Nat.eq_dec a (D i)) as [I|I]; [exfalso; eapply DN; eauto|]. destruct (Nat.eqb_spec a (lab (ev i))); [congruence|ring].
Qed.

(** Two classes, one of them left out of the log: IPW averages to 0 although the uniform policy is worth 1/2. *)
Example C158_example : let lab := fun i : nat => i in exists d v,
  proper_labels 2 2 lab /\ mc_init (tabZ 2 lab) (1 / 2) 1 = Ok d /\ sorts insertion_argsort /\
  let dist := tab3F 1 2 1 (fun _ _ _ => 1 / 2) in
  mc_ground_truth d (tab 1 (fun i => i)) dist = Ok (Fin (1 / 2)) /\
  estimates1 1 (fun us => mc_batch (fun _ => us) insertion_argsort d (tab 1 (fun i => i)) (tab 1 (fun _ => 0%nat)) (tabR2 1 2 (fun _ a => if Nat.eqb a 0 then 1 else 0)) 0%nat)
    (fun b => ipw_value PInf false (mc_rewards b) (mc_actions b) dist (Some (mc_pscores b)) None None) v /\ v = 0.
Proof.
  intros lab.
  assert (Hl : proper_labels 2 2 lab).
  { split; [intros i Hi; unfold lab; lia|]. intros c Hc. exists c. split; [lia|reflexivity]. }
  set (dd := mkMC (tab 2 lab) (tab 2 (fun i => one_hot 2 (lab i))) (1 / 2) 2 (Z.to_nat 1)).
  assert (Hd : mc_init (tabZ 2 lab) (1 / 2) 1 = Ok dd) by (apply (C61_init 2 2 lab (1 / 2) 1 Hl); [lra|lia]).
  assert (Hev : forall i, (i < 1)%nat -> (i < 2)%nat /\ (0 < 2)%nat) by (intros; lia).
  destruct (C158_draws 2 2 lab (1 / 2) 1 dd insertion_argsort 1 (fun i => i) (fun _ => 0%nat) (fun _ a => if Nat.eqb a 0 then 1 else 0) 0%nat Hl ltac:(lra) ltac:(lia) Hd insertion_argsort_sorts Hev ltac:(lia))
    as (pi & D & HP & _ & H).
  specialize (H (fun _ _ => 1 / 2)). cbv zeta in H. destruct H as (HI & _).
  { intros; lra. } { intros; cbn; lra. }
  exists dd. eexists. split; [exact Hl|]. split; [exact Hd|]. split; [apply insertion_argsort_sorts|]. cbv zeta. split; [|split; [exact HI|]].
  - rewrite (proj1 (C61_ground_truth 2 2 lab (1 / 2) 1 dd 1 1 (fun i => i) (fun _ _ _ => 1 / 2) Hl ltac:(lra) ltac:(lia) Hd ltac:(intros; lia) ltac:(lia))). unfold avg, sumn. do 2 f_equal. cbn [INR]. field.
  - destruct (HP 0%nat ltac:(lia)) as ((ND & LD & HD & Hout) & _).
    assert (I0 : In 0%nat (D 0%nat)).
    { destruct (in_dec Nat.eq_dec 0%nat (D 0%nat)) as [I|I]; [exact I|exfalso].
      destruct (D 0%nat) as [|b [|c l]] eqn:ED; cbn in LD; try lia.
      assert (b = 1%nat) by (specialize (HD b ltac:(left; reflexivity)); assert (b <> 0%nat) by (intros ->; apply I; left; reflexivity); lia). subst b.
      pose proof (Hout 1%nat 0%nat ltac:(left; reflexivity) ltac:(lia) I) as Hc. cbn in Hc. lra. }
    unfold avg. cbn [sumn INR]. unfold lab. destruct (in_dec Nat.eq_dec 0%nat (D 0%nat)); [field|contradiction].
Qed.

Print Assumptions C158_draws.
