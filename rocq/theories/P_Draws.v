(** * P_Draws: property C149 (the law of the generated logs, over the uniform numbers they are made from) *)

From Coq Require Import String Reals List ZArith Lia Lra Bool Permutation.
From Coquelicot Require Import Coquelicot.
From Verif Require Import Num NpList M_Utils M_Estimators M_Data S_Base S_Prob S_Estimators S_Env S_Data S_Draws
  L_Num L_Base L_Utils L_Estimators L_EstProps L_Examples L_Data L_Draws P_Utils P_Estimators P_Data.
Import ListNotations.
Open Scope R_scope.

(** ** C149 *)

(** A row of probabilities and one uniform number: action [a] comes out with its probability. *)
Theorem C149_sampler : forall K (p g : nat -> R), (forall a, (a < K)%nat -> 0 <= p a) -> sumn K p = 1 ->
  is_RInt (fun u => g (sample_action_row (tab K p) u)) 0 1 (sumn K (fun a => p a * g a)).
Proof. intros. apply sampler_mean; auto. Qed.

(** A batch: the logged actions are independent and each follows its row. *)
Theorem C149_joint : forall n K (p : nat -> nat -> R) (F : list nat -> R),
  (forall i a, (i < n)%nat -> (a < K)%nat -> 0 <= p i a) -> (forall i, (i < n)%nat -> sumn K (p i) = 1) ->
  uniform_mean n (fun us => F (sample_action_fast (tab n (fun i => tab K (p i))) (tab n us))) (product_mean n K p (fun act => F (tab n act))).
Proof.
  intros n K p F Hp Hs. eapply mean_ext; [|apply (joint_mean n K p (fun act => F (tab n act)) Hp Hs)].
  - intros us _. cbn. f_equal. unfold sample_action_fast. rewrite combine_tab, map_tab. reflexivity.
  - intros act act' E. f_equal. apply tab_ext. auto.
Qed.

(** The batch of a binary dataset, with one behaviour policy whatever the draws. *)
Lemma batch_of_draws tn argsort d n context g m lg :
  sorts argsort -> (ds_deficient d < ds_K d)%nat -> (0 < n)%nat -> length context = n -> mean_table d context n m -> logit_table d context n m lg ->
  ds_binary d = true -> (forall i a, (i < n)%nat -> (a < ds_K d)%nat -> 0 <= m i a <= 1) ->
  exists pi : nat -> nat -> R,
    (forall i a, (i < n)%nat -> (a < ds_K d)%nat -> 0 <= pi i a) /\ (forall i, (i < n)%nat -> sumn (ds_K d) (pi i) = 1) /\
    forall uniform binom, (forall i, 0 <= uniform (ds_seed d) i < 1) ->
      let act i := sample_action_row (tab (ds_K d) (pi i)) (uniform (ds_seed d) i) in
      (forall i, (i < n)%nat -> (act i < ds_K d)%nat /\ 0 < pi i (act i)) /\
      synth_batch tn uniform argsort d (Z.of_nat n) context (tabR2 n (ds_K d) g) binom =
      Ok {| b_n := n; b_actions := ds_K d; b_context := context; b_action := tab n act; b_reward := tab n (fun i => if binom i (m i (act i)) then 1 else 0);
            b_expected := tabR2 n (ds_K d) m; b_pi := tab n (fun i => tab (ds_K d) (fun a => [pi i a])); b_pscore := tab n (fun i => pi i (act i)) |}.
Proof.
  intros Hs Hd Hn HL Hm Hlg Hb Hq.
  assert (Rm : forall x, reported tn d x = x) by (intros x; unfold reported; rewrite Hb; reflexivity).
  assert (Hlg' : logit_table d context n (fun i a => reported tn d (m i a)) lg).
  { revert Hlg. unfold logit_table. destruct (ds_beh d); auto. intros H i a Hi Ha. rewrite Rm. auto. }
  destruct (behaviour_ok argsort n (ds_K d) (ds_deficient d) (fun _ => ds_beta d) g lg Hs Hd) as (pi & S & E & H).
  assert (D : forall i, (i < n)%nat -> (forall a, (a < ds_K d)%nat -> 0 <= pi i a) /\ sumn (ds_K d) (pi i) = 1).
  { intros i Hi. destruct (H i Hi) as (Hsel & Hsm & Hr).
    destruct (softmax_on_dist (ds_K d) (S i) (ds_beta d) (lg i) (pi i) Hsm) as (D1 & D2 & _); eauto.
    destruct Hsel as (_ & HL' & _). intros E0. rewrite E0 in HL'. cbn in HL'. lia. }
  exists pi. split; [intros i a Hi; apply D; auto|]. split; [intros i Hi; apply D; auto|].
  intros uniform binom Hu act.
  assert (A : forall i, (i < n)%nat -> (act i < ds_K d)%nat /\ 0 < pi i (act i)).
  { intros i Hi. assert (HR : Rsum (tab (ds_K d) (pi i)) = 1).
    { rewrite <- (proj2 (D i Hi)). rewrite <- (firstn_sum (ds_K d) (pi i) (ds_K d)) by lia. rewrite firstn_all2 by (rewrite tab_length; lia). reflexivity. }
    destruct (sample_row_spec (tab (ds_K d) (pi i)) (uniform (ds_seed d) i)) as (A1 & _ & A2).
    - intros v Hv. apply In_tab in Hv as (b & Hb' & <-). apply D; auto.
    - rewrite HR. apply Hu.
    - rewrite tab_length in A1. fold (act i) in A1, A2. rewrite nth_tab in A2 by auto. auto. }
  split; auto. unfold synth_batch, check_scalar_Z. destruct (Z.ltb_spec (Z.of_nat n) 1); [lia|]. cbn [raise_if bind]. rewrite Nat2Z.id.
  assert (Ec := corrected_tab tn d context n m HL Hm).
  rewrite (logits_tab d context n _ lg (corrected tn d context) Hlg' Ec). rewrite repeat_is_tab, E, Ec.
  change (map (uniform (ds_seed d)) (seq 0 n)) with (tab n (uniform (ds_seed d))).
  assert (Ea : sample_action_fast (tabR2 n (ds_K d) pi) (tab n (uniform (ds_seed d))) = tab n act).
  { unfold sample_action_fast, tabR2. rewrite combine_tab, map_tab. reflexivity. }
  rewrite Ea. rewrite pick_cols_tab by (intros; apply A; auto).
  replace (map (map (fun v => [v])) (tabR2 n (ds_K d) pi)) with (tab n (fun i => tab (ds_K d) (fun a => [pi i a])))
    by (unfold tabR2; rewrite map_tab; apply tab_ext; intros; rewrite map_tab; reflexivity).
  assert (Ha : forall i, (i < n)%nat -> (act i < ds_K d)%nat) by (intros; apply A; auto).
  destruct (sample_given_tab tn binom d n (fun i a => reported tn d (m i a)) act Ha) as (_ & G2 & _).
  rewrite G2; [|exact Hb|intros i Hi; rewrite Rm; apply Hq; auto]. cbn [bind]. f_equal.
  assert (ER : tabR2 n (ds_K d) (fun i a => reported tn d (m i a)) = tabR2 n (ds_K d) m).
  { unfold tabR2. apply tab_ext. intros i Hi. apply tab_ext. intros a Ha'. apply Rm. }
  rewrite ER. f_equal. apply tab_ext. intros i Hi. rewrite Rm. reflexivity.
Qed.

(** The estimators applied to what the generator returns: averaged over the numbers it is made from, IPW and DR (with any table of
    predictions) are the ground truth the same dataset computes. *)
Theorem C149_end_to_end : forall tn argsort coin d n context g m lg (pe qh : nat -> nat -> R),
  sorts argsort -> fair_coin coin -> (ds_deficient d < ds_K d)%nat -> (0 < n)%nat -> length context = n ->
  mean_table d context n m -> logit_table d context n m lg ->
  ds_binary d = true -> (forall i a, (i < n)%nat -> (a < ds_K d)%nat -> 0 <= m i a <= 1) ->
  (forall i a, (i < n)%nat -> (a < ds_K d)%nat -> 0 <= pe i a) -> (forall i, (i < n)%nat -> sumn (ds_K d) (pe i) = 1) ->
  exists pi : nat -> nat -> R,
    (forall i a, (i < n)%nat -> (a < ds_K d)%nat -> 0 <= pi i a) /\ (forall i, (i < n)%nat -> sumn (ds_K d) (pi i) = 1) /\
    ((forall i a, (i < n)%nat -> (a < ds_K d)%nat -> 0 < pe i a -> 0 < pi i a) ->
     exists (ipw dr : (nat -> R) -> (nat -> R) -> R) v,
       let dist := tab3F n (ds_K d) 1 (fun i a _ => pe i a) in
       (forall us vs, unit_draws us -> exists b,
          synth_batch tn (fun _ => us) argsort d (Z.of_nat n) context (tabR2 n (ds_K d) g) (fun i p => coin (vs i) p) = Ok b /\
          b_pi b = tab n (fun i => tab (ds_K d) (fun a => [pi i a])) /\
          ground_truth (map (map Fin) (b_expected b)) dist = Ok (Fin v) /\
          ipw_value PInf false (map Fin (b_reward b)) (map Z.of_nat (b_action b)) dist (Some (map Fin (b_pscore b))) None None = Ok (Fin (ipw us vs)) /\
          dr_value PInf false (map Fin (b_reward b)) (map Z.of_nat (b_action b)) dist (tab3F n (ds_K d) 1 (fun i a _ => qh i a))
            (Some (map Fin (b_pscore b))) None None = Ok (Fin (dr us vs))) /\
       uniform_mean2 n ipw v /\ uniform_mean2 n dr v).
Proof.
  intros tn argsort coin d n context g m lg pe qh Hs Hcoin Hd Hn HL Hm Hlg Hb Hq Hpe0 Hpe1.
  destruct (batch_of_draws tn argsort d n context g m lg Hs Hd Hn HL Hm Hlg Hb Hq) as (pi & P0 & P1 & HB).
  exists pi. split; auto. split; auto. intros Hsup.
  set (K := ds_K d) in *.
  set (act := fun (us : nat -> R) i => sample_action_row (tab K (pi i)) (us i)).
  set (l := fun us vs => {| lg_n := n; lg_K := K; lg_L := 1; lg_r := fun i => if coin (vs i) (m i (act us i)) then 1 else 0; lg_a := act us; lg_pos := fun _ => 0%nat;
                            lg_p := fun i => pi i (act us i); lg_pi := fun i a _ => pe i a; lg_q := fun i a _ => qh i a |} : blog).
  destruct (C59_policy_value n K 1 m (fun i a _ => pe i a) 0 1 Hn ltac:(lia) Hpe0 Hpe1 Hq) as (v & Ev & Vv & _).
  exists (fun us vs => spec_ipw None (l us vs)), (fun us vs => spec_dr None (l us vs)), v. cbv zeta.
  assert (HA : forall us, unit_draws us -> forall i, (i < n)%nat -> (act us i < K)%nat /\ 0 < pi i (act us i)).
  { intros us Hus. apply (HB (fun _ => us) (fun _ _ => true)). intros i. specialize (Hus i). lra. }
  split.
  - intros us vs Hus. destruct (HB (fun _ => us) (fun i p => coin (vs i) p)) as [_ EB]; [intros i; specialize (Hus i); lra|]. eexists. split; [exact EB|].
    cbn [b_pi b_expected b_reward b_action b_pscore]. split; [reflexivity|].
    assert (Acc : accepted (l us vs)).
    { constructor; cbn; auto; try (intros i Hi; apply (HA us Hus i Hi)). intros i s Hi _. rewrite Hpe1 by auto. rewrite Rminus_diag_eq by auto. rewrite Rabs_R0. unfold tol. lra. }
    split; [|split].
    + rewrite <- Ev. f_equal. unfold tabR2, tab2F, tabF. rewrite map_tab. apply tab_ext. intros i Hi. rewrite map_tab. reflexivity.
    + rewrite !map_tab. exact (ipw_value_ok None false (l us vs) None (Some (pscores (l us vs))) None Acc (or_intror (conj eq_refl (conj eq_refl (fun _ _ => eq_refl)))) eq_refl).
    + rewrite !map_tab. exact (dr_value_ok None false (l us vs) None (Some (pscores (l us vs))) None Acc (or_intror (conj eq_refl (conj eq_refl (fun _ _ => eq_refl)))) eq_refl).
  - assert (Wt : forall i (f : nat -> R), (i < n)%nat -> sumn K (fun a => pi i a * (f a * (pe i a / pi i a))) = sumn K (fun a => pe i a * f a)).
    { intros i f Hi. apply sumn_ext. intros a Ha. destruct (Req_dec (pi i a) 0) as [E|E]; [|field; auto].
      assert (pe i a = 0) as ->; [|rewrite E; unfold Rdiv; ring]. destruct (Hpe0 i a Hi Ha) as [H|H]; [|auto]. specialize (Hsup i a Hi Ha H). lra. }
    assert (Coin : forall i a, (i < n)%nat -> (a < K)%nat -> forall c k, is_RInt (fun v => ((if coin v (m i a) then 1 else 0) - c) * k) 0 1 ((m i a - c) * k)).
    { intros i a Hi Ha c k. apply (is_RInt_ext (V := R_NormedModule) (fun v => scal k (minus (if coin v (m i a) then 1 else 0) c))).
      - intros x _. unfold scal, minus, plus, opp; simpl. unfold mult; simpl. ring.
      - eapply is_RInt_val; [|apply (is_RInt_scal (V := R_NormedModule)), (is_RInt_minus (V := R_NormedModule)); [apply Hcoin, Hq; auto|apply const_int]].
        unfold scal, minus, plus, opp; simpl. unfold mult; simpl. ring. }
    split.
    + exists (fun us => avg n (fun i => m i (act us i) * (pe i (act us i) / pi i (act us i)))). split.
      * intros us Hus. unfold spec_ipw, weight. cbn [l lg_n lg_r lg_pi lg_a lg_pos lg_p clip].
        apply (mean_avg n (fun i v => (if coin v (m i (act us i)) then 1 else 0) * (pe i (act us i) / pi i (act us i)))
                          (fun i => m i (act us i) * (pe i (act us i) / pi i (act us i)))).
        intros i Hi. destruct (HA us Hus i Hi) as [Hai _].
        eapply is_RInt_val; [|apply (is_RInt_ext (V := R_NormedModule) _ _ _ _ _ (fun x _ => f_equal (fun y => y * _) (Rminus_0_r _)) (Coin i (act us i) Hi Hai 0 _))].
        ring.
      * rewrite Vv. apply (mean_avg n (fun i u => (fun a => m i a * (pe i a / pi i a)) (sample_action_row (tab K (pi i)) u)) (fun i => sumn K (fun a => pe i a * m i a))).
        intros i Hi. rewrite <- (Wt i (m i) Hi). apply (sampler_mean K (pi i) (fun a => m i a * (pe i a / pi i a))); auto.
    + set (base := fun i => sumn K (fun a => qh i a * pe i a) / sumn K (fun a => pe i a)).
      assert (Base : forall i, (i < n)%nat -> base i = sumn K (fun a => pe i a * qh i a)).
      { intros i Hi. unfold base. replace (sumn K (fun a => pe i a)) with 1 by (symmetry; apply (Hpe1 i Hi)). unfold Rdiv. rewrite Rinv_1, Rmult_1_r. apply sumn_ext. intros; ring. }
      exists (fun us => avg n base + avg n (fun i => (m i (act us i) - qh i (act us i)) * (pe i (act us i) / pi i (act us i)))).
      assert (Shift : forall k F w c, uniform_mean k F w -> uniform_mean k (fun us => c + F us) (c + w)).
      { induction k as [|k IH]; intros F w c; cbn [uniform_mean]; [congruence|]. intros (G & HG & HI). exists (fun u => c + G u). split; [intros; apply IH; auto|].
        eapply is_RInt_val; [|apply (is_RInt_plus (V := R_NormedModule)); [apply const_int|exact HI]]. unfold plus; simpl. ring. }
      split.
      * intros us Hus. unfold spec_dr, spec_dr_with, spec_dm, q_pi, q_at, weight. cbn [l lg_n lg_K lg_r lg_pi lg_a lg_pos lg_p lg_q clip]. fold (base).
        apply Shift.
        eapply mean_ext; [|apply (mean_avg n (fun i v => ((if coin v (m i (act us i)) then 1 else 0) - qh i (act us i)) * (pe i (act us i) / pi i (act us i)))
                          (fun i => (m i (act us i) - qh i (act us i)) * (pe i (act us i) / pi i (act us i))))].
        -- intros vs _. cbn. apply avg_ext. intros i Hi. ring.
        -- intros i Hi. destruct (HA us Hus i Hi) as [Hai _]. apply Coin; auto.
      * replace v with (avg n base + avg n (fun i => sumn K (fun a => pe i a * (m i a - qh i a)))).
        -- apply Shift. apply (mean_avg n (fun i u => (fun a => (m i a - qh i a) * (pe i a / pi i a)) (sample_action_row (tab K (pi i)) u)) (fun i => sumn K (fun a => pe i a * (m i a - qh i a)))).
           intros i Hi. rewrite <- (Wt i (fun a => m i a - qh i a) Hi). apply (sampler_mean K (pi i) (fun a => (m i a - qh i a) * (pe i a / pi i a))); auto.
        -- rewrite Vv. rewrite <- avg_plus. apply avg_ext. intros i Hi. rewrite Base by auto. rewrite <- sumn_plus. apply sumn_ext. intros; ring.
Qed.

(** The numbers asked for exist: comparing the uniform number with the probability is such a coin; a dataset meeting the hypotheses
    is [C58_example]'s. *)
Example C149_cases : fair_coin (fun v p => Rltb v p) /\ unit_draws (fun _ => 1 / 2) /\
  uniform_mean 2 (fun us => INR (sample_action_row [1 / 4; 3 / 4] (us 0%nat)) * INR (sample_action_row [1 / 2; 1 / 2] (us 1%nat))) (3 / 8) /\
  forall n g (pe qh : nat -> nat -> R), (0 < n)%nat -> (forall i a, (i < n)%nat -> (a < 3)%nat -> 0 <= pe i a) -> (forall i, (i < n)%nat -> sumn 3 (pe i) = 1) ->
    exists pi : nat -> nat -> R, (forall i, (i < n)%nat -> sumn 3 (pi i) = 1) /\
    ((forall i a, (i < n)%nat -> (a < 3)%nat -> 0 < pe i a -> 0 < pi i a) ->
     exists ipw v, (forall us vs, unit_draws us -> exists b,
        synth_batch ex_tn (fun _ => us) insertion_argsort ex_data (Z.of_nat n) (repeat [0] n) (tabR2 n 3 g) (fun i p => Rltb (vs i) p) = Ok b /\
        ipw_value PInf false (map Fin (b_reward b)) (map Z.of_nat (b_action b)) (tab3F n 3 1 (fun i a _ => pe i a)) (Some (map Fin (b_pscore b))) None None = Ok (Fin (ipw us vs))) /\
      uniform_mean2 n ipw v).
Proof.
  split; [apply less_is_coin|]. split; [intros i; lra|]. split.
  - set (p := fun i a => nth a (nth i [[1/4; 3/4]; [1/2; 1/2]] []) 0).
    eapply mean_ext; [|replace (3 / 8) with (product_mean 2 2 p (fun act => INR (act 0%nat) * INR (act 1%nat))); [apply (joint_mean 2 2 p (fun act => INR (act 0%nat) * INR (act 1%nat)))|]].
    + intros us _. reflexivity.
    + intros i a Hi Ha. unfold p. destruct i as [|[|i]]; [| |lia]; (destruct a as [|[|a]]; [| |lia]); simpl; lra.
    + intros i Hi. unfold p. destruct i as [|[|i]]; [| |lia]; simpl; lra.
    + intros act act' E. rewrite !E by lia. reflexivity.
    + unfold p. simpl. lra.
  - intros n g pe qh Hn H0 H1. destruct (C58_example n Hn) as (E1 & _ & E3 & E4 & E5).
    destruct (C149_end_to_end ex_tn insertion_argsort (fun v p => Rltb v p) ex_data n (repeat [0] n) g (fun _ a => INR a / 4) (fun _ a => INR a / 4) pe qh) as (pi & _ & P1 & H);
      auto using less_is_coin, repeat_length.
    + intros i a Hi Ha. apply ex_mean; auto.
    + exists pi. split; auto. intros Hsup. destruct (H Hsup) as (ipw & dr & v & HB & HM & _). exists ipw, v. split; auto.
      intros us vs Hus. destruct (HB us vs Hus) as (b & B1 & _ & _ & B2 & _). exists b. auto.
Qed.

Print Assumptions C149_sampler.
Print Assumptions C149_joint.
Print Assumptions C149_end_to_end.
