(** * P_MultiDraws: property C155 (logs of several loggers over the generator's own randomness) *)

From Coq Require Import String Reals List ZArith Lia Lra Bool Permutation.
From Coquelicot Require Import Coquelicot.
From Verif Require Import Num NpList M_Utils M_Estimators M_Multi M_Data S_Base S_Prob S_Estimators S_Env S_Robust S_Data S_Draws
  L_Num L_Base L_Utils L_Prob L_Estimators L_EstProps L_Unbiased L_Examples L_Data L_Draws L_Multi P_Utils P_Estimators P_Data P_Draws P_DrawLaw P_DataMulti P_Robust.
Import ListNotations.
Open Scope R_scope.

(** ** A log sampled round by round *)

Definition sampled (n K : nat) (coin : R -> R -> bool) (pi m : nat -> nat -> R) (us vs : nat -> R) : list (nat * nat * R) :=
  tab n (fun i => let a := sample_action_row (tab K (pi i)) (us i) in (i, a, if coin (vs i) (m i a) then 1 else 0)).

Lemma sampled_action K (p : nat -> R) u : (forall a, (a < K)%nat -> 0 <= p a) -> sumn K p = 1 -> 0 <= u < 1 ->
  (sample_action_row (tab K p) u < K)%nat /\ 0 < p (sample_action_row (tab K p) u).
Proof.
  intros P0 P1 Hu. assert (HR : Rsum (tab K p) = 1).
  { rewrite <- P1. rewrite <- (firstn_sum K p K) by lia. rewrite firstn_all2 by (rewrite tab_length; lia). reflexivity. }
  destruct (sample_row_spec (tab K p) u) as (A1 & _ & A2).
  - intros v Hv. apply In_tab in Hv as (b & Hb & <-). auto.
  - rewrite HR. auto.
  - rewrite tab_length in A1. rewrite nth_tab in A2 by auto. auto.
Qed.

Lemma sampled_law n K coin pi pe m : fair_coin coin -> possible_coin coin ->
  (forall i a, (i < n)%nat -> (a < K)%nat -> 0 <= pi i a) -> (forall i, (i < n)%nat -> sumn K (pi i) = 1) ->
  (forall i a, (i < n)%nat -> (a < K)%nat -> 0 <= m i a <= 1) ->
  let e := fixed_rounds n K pi pe m in
  (forall us vs, unit_draws us -> unit_draws vs -> exists p, In (sampled n K coin pi m us vs, p) (log_dist e) /\ p <> 0) /\
  forall F, uniform_mean2 n (fun us vs => F (sampled n K coin pi m us vs)) (expect (log_dist e) F).
Proof.
  intros Hcoin Hposs P0 P1 Hq e.
  set (act := fun (us : nat -> R) i => sample_action_row (tab K (pi i)) (us i)).
  assert (HA : forall us, unit_draws us -> forall i, (i < n)%nat -> (act us i < K)%nat /\ 0 < pi i (act us i)).
  { intros us Hus i Hi. apply sampled_action; auto; try (intros; apply P0; auto). specialize (Hus i). lra. }
  split.
  - intros us vs Hus Hvs. apply In_dprod. intros i Hi. destruct (HA us Hus i Hi) as [A1 A2]. unfold round_dist, e, fixed_rounds. cbn [ev_ctx ev_K ev_pb ev_rd ev_pos].
    fold (act us i). set (r := if coin (vs i) (m i (act us i)) then 1 else 0).
    assert (HR : exists q, In (r, q) [(1, m i (act us i)); (0, 1 - m i (act us i))] /\ q <> 0).
    { unfold r. specialize (Hposs (vs i) (m i (act us i)) (Hvs i) (Hq i _ Hi A1)). destruct (coin (vs i) (m i (act us i))).
      - exists (m i (act us i)). split; [left; reflexivity|lra].
      - exists (1 - m i (act us i)). split; [right; left; reflexivity|lra]. }
    destruct HR as (q & Hq' & Nq). exists (1 * (pi i (act us i) * q)). split; [|apply Rmult_integral_contrapositive; split; [lra|apply Rmult_integral_contrapositive; split; [lra|auto]]].
    apply (In_dbind _ _ i 1); [left; reflexivity|]. apply (In_dbind _ _ (act us i) (pi i (act us i))).
    + unfold dtab. apply In_tab. exists (act us i). rewrite (clamp_round n i Hi). auto.
    + unfold dmap. apply in_map_iff. exists (r, q). rewrite (clamp_round n i Hi). rewrite (proj2 (Nat.ltb_lt _ _) A1). auto.
  - intros F.
    set (E := fun i a => let p := if Nat.ltb a K then m i a else 0 in dmap (fun r => (i, a, r)) [(1, p); (0, 1 - p)] : dist (nat * nat * R)).
    exists (fun us => expect (dprod n (fun i => E i (act us i))) F). split.
    + intros us Hus. apply (mean_dprod n (fun i => E i (act us i)) (fun i v => (i, act us i, if coin v (m i (act us i)) then 1 else 0)) F).
      intros i gg Hi. destruct (HA us Hus i Hi) as [A1 _]. unfold E. rewrite (proj2 (Nat.ltb_lt _ _) A1). rewrite expect_dmap. cbn [expect fold_right fst snd]. rewrite Rplus_0_r.
      apply (coin_int coin (m i (act us i)) (fun r => gg (i, act us i, r))); auto.
    + assert (EE : expect (log_dist e) F = expect (dprod n (fun i => dtab K (pi i))) (fun o => expect (dprod n (fun i => E i (nth i o 0%nat))) F)).
      { rewrite <- (dprod_dbind n 0%nat (fun i => dtab K (pi i)) E F). unfold log_dist. cbn [e fixed_rounds ev_n]. apply dprod_ext. intros i gg Hi.
        unfold round_dist, e, fixed_rounds. cbn [ev_ctx ev_K ev_pb ev_rd ev_pos]. rewrite expect_dbind. cbn [expect fold_right fst snd]. rewrite (clamp_round n i Hi). rewrite Rmult_1_r, Rplus_0_r.
        rewrite !expect_dbind. apply expect_ext_all. intros a. reflexivity. }
      rewrite EE.
      eapply mean_ext; [|apply (mean_dprod n (fun i => dtab K (pi i)) (fun i u => sample_action_row (tab K (pi i)) u) (fun o => expect (dprod n (fun i => E i (nth i o 0%nat))) F))].
      * intros us Hus. cbn. apply dprod_ext. intros i gg Hi. rewrite nth_tab by auto. reflexivity.
      * intros i gg Hi. rewrite expect_dtab. rewrite (sumn_ext _ (fun a => gg a * pi i a) (fun a => pi i a * gg a)) by (intros; ring).
        apply sampler_mean; auto.
Qed.

(** ** Means of the estimators with any positive propensities, round by round *)

Lemma fixed_rounds_errors n K pi pe m pt qh : (0 < n)%nat -> let e := fixed_rounds n K pi pe m in
  (forall i a, (i < n)%nat -> (a < K)%nat -> 0 < pi i a -> 0 < pt i a) ->
  let table := fun (x s a : nat) => pt (Nat.min x (n - 1)) a in
  policy_value e + under_policy e (fun x s a => propensity_error e table x s a * model_error e (fun x a s => qh x a) x s a)
  = avg n (fun i => sumn K (fun a => pe i a * (qh i a + pi i a / pt i a * (m i a - qh i a)))) /\
  policy_value e - under_policy e (fun x s a => propensity_error e table x s a * q_true e x s a)
  = avg n (fun i => sumn K (fun a => pe i a * (pi i a / pt i a * m i a))).
Proof.
  intros Hn e Hpt table.
  assert (U : forall f, under_policy e f = avg n (fun i => sumn K (fun a => pe i a * f i 0%nat a))).
  { intros f. unfold under_policy, e, fixed_rounds. cbn [ev_n ev_ctx ev_K ev_pos ev_pe]. apply avg_ext. intros i Hi. cbn [expect fold_right fst snd]. rewrite (clamp_round n i Hi). ring. }
  assert (Q : forall i a, (i < n)%nat -> (a < K)%nat -> q_true e i 0 a = m i a).
  { intros i a Hi Ha. unfold q_true, e, fixed_rounds. cbn [ev_rd]. rewrite (clamp_round n i Hi), (proj2 (Nat.ltb_lt a K) Ha). cbn [expect fold_right fst snd]. ring. }
  assert (PE : forall i a, (i < n)%nat -> (a < K)%nat -> propensity_error e table i 0 a = 1 - pi i a / pt i a).
  { intros i a Hi Ha. unfold propensity_error, table, e, fixed_rounds. cbn [ev_pb]. rewrite (clamp_round n i Hi). destruct (Req_EM_T (pi i a) 0) as [->|]; [unfold Rdiv; ring|reflexivity]. }
  assert (V : policy_value e = avg n (fun i => sumn K (fun a => pe i a * m i a))) by (apply policy_value_rounds; auto). rewrite !U, V.
  split; unfold avg; [transitivity ((sumn n (fun i => sumn K (fun a => pe i a * m i a)) + sumn n (fun i => sumn K (fun a => pe i a * (propensity_error e table i 0 a * model_error e (fun x a _ => qh x a) i 0 a)))) / INR n); [unfold Rdiv; ring|]|
    transitivity ((sumn n (fun i => sumn K (fun a => pe i a * m i a)) - sumn n (fun i => sumn K (fun a => pe i a * (propensity_error e table i 0 a * q_true e i 0 a)))) / INR n); [unfold Rdiv; ring|]];
    [rewrite <- sumn_plus|rewrite <- sumn_minus]; f_equal; apply sumn_ext; intros i Hi; [rewrite <- sumn_plus|rewrite <- sumn_minus]; apply sumn_ext; intros a Ha; rewrite PE by auto; unfold model_error; rewrite Q by auto; unfold Rdiv; ring.
Qed.

(** What a generated batch of several loggers contains, in terms of the draws. *)
Lemma multi_of_draws tn argsort d n M beta rho size context g m :
  sorts argsort -> (ds_deficient d < ds_K d)%nat -> (0 < n)%nat -> (0 < M)%nat -> length context = n -> mean_table d context n m ->
  strata_sizes n (tab M rho) = tab M size -> (forall k, (k < M)%nat -> (0 <= size k)%Z) ->
  ds_binary d = true -> (forall i a, (i < n)%nat -> (a < ds_K d)%nat -> 0 <= m i a <= 1) ->
  exists pi S stratum,
    (forall i, (i < n)%nat ->
       selected (ds_K d) (ds_K d - ds_deficient d) (g i) (S i) /\
       softmax_on (ds_K d) (S i) (if Nat.eqb (ds_deficient d) 0 then beta (stratum i) else ds_beta d) (m i) (pi i) /\
       (forall a, (a < ds_K d)%nat -> 0 <= pi i a) /\ sumn (ds_K d) (pi i) = 1) /\
    (forall i, (i < n)%nat -> (stratum i < M)%nat /\ (zsumn (stratum i) size <= Z.of_nat i < zsumn (Datatypes.S (stratum i)) size)%Z) /\
    let avg_pi i a := sumn M (fun k => rho k * full_boltzmann (ds_K d) (beta k) (m i) a) in
    forall uniform binom, (forall i, 0 <= uniform (ds_seed d) i < 1) ->
      let act i := sample_action_row (tab (ds_K d) (pi i)) (uniform (ds_seed d) i) in
      multi_batch tn uniform argsort d (tab M beta) (tab M rho) (Z.of_nat n) context (tabR2 n (ds_K d) g) binom =
      Ok {| mb_batch := {| b_n := n; b_actions := ds_K d; b_context := context; b_action := tab n act; b_reward := tab n (fun i => if binom i (m i (act i)) then 1 else 0);
            b_expected := tabR2 n (ds_K d) m; b_pi := tab n (fun i => tab (ds_K d) (fun a => [pi i a])); b_pscore := tab n (fun i => pi i (act i)) |};
            mb_stratum := tab n stratum; mb_pi_avg := tabR2 n (ds_K d) avg_pi; mb_pscore_avg := tab n (fun i => avg_pi i (act i)) |}.
Proof.
  intros Hs Hd Hn HM HL Hm Esz Hpos Hb Hq.
  assert (Rm : forall x, reported tn d x = x) by (intros x; unfold reported; rewrite Hb; reflexivity).
  assert (Hsum : zsumn M size = Z.of_nat n).
  { destruct (C60_sizes n M rho HM) as (size' & E' & _ & H2). rewrite Esz in E'. rewrite <- H2. apply zsumn_ext. apply tab_inj. auto. }
  destruct (fill_blocks n M size Hpos Hsum) as (blk & F & HB).
  set (bt := fun i => if Nat.eqb (ds_deficient d) 0 then beta (blk i) else ds_beta d).
  assert (Eb : (if Nat.ltb 0 (ds_deficient d) then repeat (ds_beta d) n else tab n (fun i => beta (blk i))) = tab n bt).
  { unfold bt. destruct (Nat.ltb_spec 0 (ds_deficient d)), (Nat.eqb_spec (ds_deficient d) 0); try lia; auto. apply repeat_is_tab. }
  destruct (behaviour_ok argsort n (ds_K d) (ds_deficient d) bt g m Hs Hd) as (pi & S & EB & H).
  assert (D : forall i, (i < n)%nat -> (forall a, (a < ds_K d)%nat -> 0 <= pi i a) /\ sumn (ds_K d) (pi i) = 1).
  { intros i Hi. destruct (H i Hi) as (Hsel & Hsm & Hr).
    destruct (softmax_on_dist (ds_K d) (S i) (bt i) (m i) (pi i) Hsm) as (D1 & D2 & _); eauto.
    destruct Hsel as (_ & HL' & _). intros E0. rewrite E0 in HL'. cbn in HL'. lia. }
  exists pi, S, blk. split; [|split; [exact HB|]].
  { intros i Hi. destruct (H i Hi) as (A1 & A2 & _). destruct (D i Hi) as (D1 & D2). split; [exact A1|]. split; [exact A2|]. split; auto. }
  intros avg_pi uniform binom Hu act.
  assert (A : forall i, (i < n)%nat -> (act i < ds_K d)%nat) by (intros i Hi; apply sampled_action; auto; apply D; auto).
  unfold multi_batch, check_scalar_Z. destruct (Z.ltb_spec (Z.of_nat n) 1); [lia|]. cbn [raise_if bind]. rewrite tab_length. destruct (Nat.eqb_spec M 0); [lia|]. cbn [raise_if bind].
  rewrite Nat2Z.id, Esz, tab_length. rewrite (corrected_tab tn d context n m HL Hm).
  assert (Eq : tabR2 n (ds_K d) (fun i a => reported tn d (m i a)) = tabR2 n (ds_K d) m) by (unfold tabR2; apply tab_ext; intros i Hi; apply tab_ext; intros; apply Rm).
  rewrite Eq, average_policy_tab by lia. rewrite <- (map_id (seq 0 M)). change (map (fun x => x) (seq 0 M)) with (tab M (fun k => k)). rewrite !F. cbn [bind]. cbv zeta.
  change (map (uniform (ds_seed d)) (seq 0 n)) with (tab n (uniform (ds_seed d))). rewrite Eb, EB.
  assert (Ea : sample_action_fast (tabR2 n (ds_K d) pi) (tab n (uniform (ds_seed d))) = tab n act).
  { unfold sample_action_fast, tabR2. rewrite combine_tab, map_tab. reflexivity. }
  rewrite Ea, !pick_cols_tab by auto.
  destruct (sample_given_tab tn binom d n m act A) as (_ & G2 & _). rewrite G2 by auto. cbn [bind].
  replace (map (map (fun v => [v])) (tabR2 n (ds_K d) pi)) with (tab n (fun i => tab (ds_K d) (fun a => [pi i a])))
    by (unfold tabR2; rewrite map_tab; apply tab_ext; intros; rewrite map_tab; reflexivity).
  reflexivity.
Qed.

Lemma full_softmax K g S beta lg pi : selected K K g S -> softmax_on K S beta lg pi -> forall a, (a < K)%nat -> pi a = full_boltzmann K beta lg a.
Proof.
  intros (ND & LS & HS & _) [Hin _] a Ha.
  assert (P : Permutation (seq 0 K) S).
  { apply Permutation_sym, NoDup_Permutation_bis; auto; [rewrite seq_length; lia|]. intros b Hb. apply in_seq. specialize (HS b Hb). lia. }
  rewrite Hin; auto; [|apply (Permutation_in _ P), in_seq; lia]. unfold boltzmann_on, full_boltzmann. f_equal. rewrite <- sum_over_seq. apply sum_over_perm, Permutation_sym, P.
Qed.

Lemma stratum_sum size blk (f : nat -> R) : forall M n, (forall k, (k < M)%nat -> (0 <= size k)%Z) -> zsumn M size = Z.of_nat n ->
  (forall i, (i < n)%nat -> (blk i < M)%nat /\ (zsumn (blk i) size <= Z.of_nat i < zsumn (S (blk i)) size)%Z) ->
  sumn n (fun i => f (blk i)) = sumn M (fun k => IZR (size k) * f k).
Proof.
  induction M as [|M IH]; intros n Hp Hs Hb.
  - cbn [zsumn] in Hs. replace n with 0%nat by lia. reflexivity.
  - assert (Mono : forall b c, (b <= c <= M)%nat -> (zsumn b size <= zsumn c size)%Z).
    { intros b c. induction c as [|c IHc]; intros Hbc; [replace b with 0%nat by lia; lia|]. destruct (Nat.eq_dec b (S c)) as [->|]; [lia|]. cbn [zsumn]. specialize (IHc ltac:(lia)). specialize (Hp c ltac:(lia)). lia. }
    pose proof (Mono 0%nat M ltac:(lia)) as H0. cbn [zsumn] in H0, Hs. pose proof (Hp M ltac:(lia)) as HpM.
    set (n' := Z.to_nat (zsumn M size)). set (p := Z.to_nat (size M)). assert (En : n = (n' + p)%nat) by lia. rewrite En, sumn_app. cbn [sumn]. f_equal.
    + apply IH; [intros; apply Hp; lia|lia|]. intros i Hi. destruct (Hb i ltac:(lia)) as [B1 B2]. split; [|exact B2].
      destruct (Nat.eq_dec (blk i) M) as [E|]; [rewrite E in B2; lia|lia].
    + rewrite (sumn_ext p _ (fun _ => f M)).
      * rewrite sumn_const. f_equal. unfold p. rewrite INR_IZR_INZ, Z2Nat.id by lia. reflexivity.
      * intros j Hj. destruct (Hb (n' + j)%nat ltac:(lia)) as [B1 B2]. f_equal. destruct (Nat.eq_dec (blk (n' + j)%nat) M) as [|NE]; [assumption|].
        pose proof (Mono (S (blk (n' + j)%nat)) M ltac:(lia)). lia.
Qed.

(** ** C155 *)

(** [X] is what [est] returns on the log generated from the draws, and it averages to [v]. *)
Definition estimates {B : Type} (n : nat) (generate : (nat -> R) -> (nat -> R) -> res B) (est : B -> res num) (v : R) : Prop :=
  exists X, (forall us vs, unit_draws us -> unit_draws vs -> exists b, generate us vs = Ok b /\ est b = Ok (Fin (X us vs))) /\ uniform_mean2 n X v.

Theorem C155_draws : forall tn argsort coin d n M beta rho size context g m,
  sorts argsort -> fair_coin coin -> possible_coin coin -> (ds_deficient d < ds_K d)%nat -> (0 < n)%nat -> (0 < M)%nat -> length context = n -> mean_table d context n m ->
  strata_sizes n (tab M rho) = tab M size -> (forall k, (k < M)%nat -> (0 <= size k)%Z) ->
  ds_binary d = true -> (forall i a, (i < n)%nat -> (a < ds_K d)%nat -> 0 <= m i a <= 1) ->
  let K := ds_K d in
  let generate us vs := multi_batch tn (fun _ => us) argsort d (tab M beta) (tab M rho) (Z.of_nat n) context (tabR2 n K g) (fun i p => coin (vs i) p) in
  exists pi S stratum,
    (forall i, (i < n)%nat -> selected K (K - ds_deficient d) (g i) (S i) /\
       softmax_on K (S i) (if Nat.eqb (ds_deficient d) 0 then beta (stratum i) else ds_beta d) (m i) (pi i) /\
       (forall a, (a < K)%nat -> 0 <= pi i a) /\ sumn K (pi i) = 1) /\
    (forall i, (i < n)%nat -> (stratum i < M)%nat /\ (zsumn (stratum i) size <= Z.of_nat i < zsumn (Datatypes.S (stratum i)) size)%Z) /\
    forall pe, (forall i a, (i < n)%nat -> (a < K)%nat -> 0 <= pe i a) -> (forall i, (i < n)%nat -> sumn K (pe i) = 1) ->
    let dist := tab3F n K 1 (fun i a _ => pe i a) in
    let value := avg n (fun i => sumn K (fun a => pe i a * m i a)) in
    let average i a := sumn M (fun k => rho k * full_boltzmann K (beta k) (m i) a) in
    (** the log, and the value the dataset reports *)
    (forall F, uniform_mean2 n (fun us vs => match generate us vs with Ok b => F (logged_rounds (mb_batch b)) | Err _ => 0 end) (expect (log_dist (fixed_rounds n K pi pe m)) F)) /\
    (forall us vs, unit_draws us -> unit_draws vs -> exists b, generate us vs = Ok b /\ ground_truth (map (map Fin) (b_expected (mb_batch b))) dist = Ok (Fin value)) /\
    (** each logger's own propensities *)
    ((forall i a, (i < n)%nat -> (a < K)%nat -> 0 < pe i a -> 0 < pi i a) ->
      estimates n generate (fun b => mn_ipw_value PInf false (map Fin (b_reward (mb_batch b))) (map Z.of_nat (b_action (mb_batch b))) dist (Some (map Fin (b_pscore (mb_batch b)))) None None) value /\
      forall qh, estimates n generate (fun b => mn_dr_value PInf false (map Fin (b_reward (mb_batch b))) (map Z.of_nat (b_action (mb_batch b))) dist (tab3F n K 1 (fun i a _ => qh i a)) (Some (map Fin (b_pscore (mb_batch b)))) None None) value) /\
    (** the average policy's propensities *)
    ((forall k, (k < M)%nat -> 0 <= rho k) -> sumn M rho = 1 ->
      estimates n generate (fun b => mb_ipw_value PInf false (map Fin (b_reward (mb_batch b))) (map Z.of_nat (b_action (mb_batch b))) dist (Some (map Fin (mb_pscore_avg b))) None None)
        (avg n (fun i => sumn K (fun a => pe i a * (pi i a / average i a * m i a)))) /\
      forall qh, estimates n generate (fun b => mb_dr_value PInf false (map Fin (b_reward (mb_batch b))) (map Z.of_nat (b_action (mb_batch b))) dist (tab3F n K 1 (fun i a _ => qh i a)) (Some (map Fin (mb_pscore_avg b))) None None)
        (avg n (fun i => sumn K (fun a => pe i a * (qh i a + pi i a / average i a * (m i a - qh i a)))))).
Proof.
  intros tn argsort coin d n M beta rho size context g m Hs Hcoin Hposs Hd Hn HM HL Hm Esz Hpos Hb Hq K generate.
  destruct (multi_of_draws tn argsort d n M beta rho size context g m Hs Hd Hn HM HL Hm Esz Hpos Hb Hq) as (pi & S & stratum & HP & HS & HB).
  fold K in HP, HB. exists pi, S, stratum. split; [exact HP|]. split; [exact HS|]. intros pe E0 E1 dist value average.
  assert (P0 : forall i a, (i < n)%nat -> (a < K)%nat -> 0 <= pi i a) by (intros i a Hi; apply HP; auto).
  assert (P1 : forall i, (i < n)%nat -> sumn K (pi i) = 1) by (intros i Hi; apply HP; auto).
  set (e := fixed_rounds n K pi pe m).
  assert (He : env_ok e) by (apply fixed_rounds_ok; auto).
  destruct (sampled_law n K coin pi pe m Hcoin Hposs P0 P1 Hq) as [HI HU]. fold e in HI, HU.
  assert (C : forall x, (Nat.min x (n - 1) < n)%nat) by (intros; lia).
  (* the batch *)
  set (act := fun (us : nat -> R) i => sample_action_row (tab K (pi i)) (us i)).
  assert (HG : forall us vs, unit_draws us -> exists b, generate us vs = Ok b /\ logged_rounds (mb_batch b) = sampled n K coin pi m us vs /\
     b_expected (mb_batch b) = tabR2 n K m /\ b_reward (mb_batch b) = tab n (fun i => if coin (vs i) (m i (act us i)) then 1 else 0) /\ b_action (mb_batch b) = tab n (act us) /\
     b_pscore (mb_batch b) = tab n (fun i => pi i (act us i)) /\ mb_pscore_avg b = tab n (fun i => average i (act us i))).
  { intros us vs Hus. unfold generate. specialize (HB (fun _ => us) (fun i p => coin (vs i) p)). cbv zeta in HB. rewrite HB by (intros i; specialize (Hus i); lra).
    eexists. split; [reflexivity|]. cbn [mb_batch b_expected b_reward b_action b_pscore mb_pscore_avg]. split; [|repeat split].
    unfold logged_rounds, sampled. cbn [b_n b_action b_reward]. apply tab_ext. intros i Hi. rewrite !nth_tab by auto. reflexivity. }
  (* the library sees the batch as that process's log *)
  assert (HV : forall us vs (pt : nat -> nat -> R) (qh : nat -> nat -> R), let l := log_of e (fun x _ a => pt (Nat.min x (n - 1)) a) (fun x a _ => qh x a) (sampled n K coin pi m us vs) in
     rewards l = map Fin (tab n (fun i => if coin (vs i) (m i (act us i)) then 1 else 0)) /\ actions l = map Z.of_nat (tab n (act us)) /\
     pscores l = map Fin (tab n (fun i => pt i (act us i))) /\ policy l = dist /\ model l = tab3F n K 1 (fun i a _ => qh i a)).
  { intros us vs pt qh l.
    assert (Nth : forall i, (i < n)%nat -> nth_error (sampled n K coin pi m us vs) i = Some (i, act us i, if coin (vs i) (m i (act us i)) then 1 else 0)).
    { intros i Hi. unfold sampled. rewrite nth_error_tab by auto. reflexivity. }
    unfold rewards, actions, pscores, policy, model, l, log_of, e, fixed_rounds, dist, tabF, tabZ, tab3F. cbn [lg_n lg_r lg_a lg_p lg_K lg_L lg_pi lg_q ev_n ev_K ev_L ev_pos ev_pb ev_pe].
    rewrite !map_tab. split; [|split; [|split; [|split]]]; apply tab_ext; intros i Hi; rewrite (Nth i Hi), ?(clamp_round n i Hi); reflexivity. }
  (* transfer *)
  assert (TR : forall (f : list (nat * nat * R) -> res num) est x, expects (log_dist e) f x ->
     (forall us vs, unit_draws us -> unit_draws vs -> exists b, generate us vs = Ok b /\ est b = f (sampled n K coin pi m us vs)) -> estimates n generate est x).
  { intros f est x (gf & Hg & Hx) Hest. exists (fun us vs => gf (sampled n K coin pi m us vs)). split.
    - intros us vs Hus Hvs. destruct (Hest us vs Hus Hvs) as (b & Eb & Ee). exists b. split; [exact Eb|]. rewrite Ee. destruct (HI us vs Hus Hvs) as (p & Hp & Np). eapply Hg; eauto.
    - rewrite <- Hx. apply HU. }
  assert (PA : forall pt qh o, position_arg (log_of e pt qh o) None) by (intros; right; split; [reflexivity|]; split; [reflexivity|intros; reflexivity]).
  assert (PS : forall pt qh o, pscore_arg (log_of e pt qh o) false (Some (pscores (log_of e pt qh o))) None) by reflexivity.
  (* both kinds of estimators, for any propensities *)
  assert (IPW : forall (pt : nat -> nat -> R), (forall i a, (i < n)%nat -> (a < K)%nat -> 0 < pi i a -> 0 < pt i a) -> let table := fun (x s a : nat) => pt (Nat.min x (n - 1)) a in
     expects (log_dist e) (fun o => let l := log_of e table (fun _ _ _ => 0) o in mn_ipw_value PInf false (rewards l) (actions l) (policy l) (Some (pscores l)) None None)
       (avg n (fun i => sumn K (fun a => pe i a * (pi i a / pt i a * m i a))))).
  { intros pt Hpt table.
    assert (Hu : usable e table) by (intros x s a Ha; unfold table, e, fixed_rounds; cbn [ev_pb]; apply Hpt; auto).
    destruct (C151_ipw_bias nat e table (fun _ _ _ => 0) false (fun o => Some (pscores (log_of e table (fun _ _ _ => 0) o))) (fun _ => None) None He Hu) as (gf & Hg & Hx); auto.
    exists gf. split.
    - intros o p Ho Hp. specialize (Hg o p Ho Hp). cbv zeta in Hg |- *. rewrite <- Hg.
      pose proof (accepted_log e He table (fun _ _ _ => 0) o p Hu Ho Hp) as Ha.
      rewrite (mn_ipw_value_ok None false (log_of e table (fun _ _ _ => 0) o) None) by auto. rewrite (ipw_value_ok None false (log_of e table (fun _ _ _ => 0) o) None) by auto. reflexivity.
    - rewrite Hx. apply (fixed_rounds_errors n K pi pe m pt (fun _ _ => 0) Hn Hpt). }
  assert (DR : forall (pt : nat -> nat -> R) (qh : nat -> nat -> R), (forall i a, (i < n)%nat -> (a < K)%nat -> 0 < pi i a -> 0 < pt i a) -> let table := fun (x s a : nat) => pt (Nat.min x (n - 1)) a in
     expects (log_dist e) (fun o => let l := log_of e table (fun x a _ => qh x a) o in mn_dr_value PInf false (rewards l) (actions l) (policy l) (model l) (Some (pscores l)) None None)
       (avg n (fun i => sumn K (fun a => pe i a * (qh i a + pi i a / pt i a * (m i a - qh i a)))))).
  { intros pt qh Hpt table.
    assert (Hu : usable e table) by (intros x s a Ha; unfold table, e, fixed_rounds; cbn [ev_pb]; apply Hpt; auto).
    destruct (C151_dr_bias nat e table (fun x a _ => qh x a) false (fun o => Some (pscores (log_of e table (fun x a _ => qh x a) o))) (fun _ => None) None He Hu) as (gf & Hg & Hx); auto.
    exists gf. split.
    - intros o p Ho Hp. specialize (Hg o p Ho Hp). cbv zeta in Hg |- *. rewrite <- Hg.
      pose proof (accepted_log e He table (fun x a _ => qh x a) o p Hu Ho Hp) as Ha.
      rewrite (mn_dr_value_ok None false (log_of e table (fun x a _ => qh x a) o) None) by auto. rewrite (dr_value_ok None false (log_of e table (fun x a _ => qh x a) o) None) by auto. reflexivity.
    - rewrite Hx. apply (fixed_rounds_errors n K pi pe m pt qh Hn Hpt). }
  split; [|split; [|split]].
  - intros F. destruct (HU F) as (G & HGG & HM'). exists G. split; auto. intros us Hus. eapply mean_ext; [|apply (HGG us Hus)].
    intros vs Hvs. cbv beta. destruct (HG us vs Hus) as (b & Eb & Er & _). rewrite Eb, Er. reflexivity.
  - intros us vs Hus Hvs. destruct (HG us vs Hus) as (b & Eb & _ & Ex & _). exists b. split; [exact Eb|].
    destruct (C59_policy_value n K 1 m (fun i a _ => pe i a) 0 1 Hn ltac:(lia) E0 E1 Hq) as (v & Ev & Vv & _).
    unfold value. rewrite <- Vv, <- Ev. f_equal. rewrite Ex. unfold tabR2, tab2F, tabF. rewrite map_tab. apply tab_ext. intros i Hi. rewrite map_tab. reflexivity.
  - intros Hsup.
    assert (VV : forall qh : nat -> nat -> R, avg n (fun i => sumn K (fun a => pe i a * (qh i a + pi i a / pi i a * (m i a - qh i a)))) = value).
    { intros qh. apply avg_ext. intros i Hi. apply sumn_ext. intros a Ha. destruct (Req_dec (pe i a) 0) as [->|Np]; [ring|].
      assert (0 < pi i a) by (apply Hsup; auto; specialize (E0 i a Hi Ha); lra). field. lra. }
    split.
    + replace value with (avg n (fun i => sumn K (fun a => pe i a * (pi i a / pi i a * m i a)))) by (rewrite <- (VV (fun _ _ => 0)); apply avg_ext; intros; apply sumn_ext; intros; f_equal; ring).
      eapply TR; [apply (IPW pi); auto|]. intros us vs Hus Hvs. destruct (HG us vs Hus) as (b & Eb & _ & _ & B1 & B2 & B3 & _). exists b. split; [exact Eb|].
      destruct (HV us vs pi (fun _ _ => 0)) as (V1 & V2 & V3 & V4 & _). cbv zeta. rewrite V1, V2, V3, V4, B1, B2, B3. reflexivity.
    + intros qh. rewrite <- (VV qh). eapply TR; [apply (DR pi qh); auto|]. intros us vs Hus Hvs. destruct (HG us vs Hus) as (b & Eb & _ & _ & B1 & B2 & B3 & _). exists b. split; [exact Eb|].
      destruct (HV us vs pi qh) as (V1 & V2 & V3 & V4 & V5). cbv zeta. rewrite V1, V2, V3, V4, V5, B1, B2, B3. reflexivity.
  - intros Hr Hr1.
    assert (HA : forall i a, (i < n)%nat -> (a < K)%nat -> 0 < pi i a -> 0 < average i a).
    { intros i a Hi Ha _. apply (C60_average_policy n K M beta rho (m i) size); auto. unfold K. lia. }
    split.
    + eapply TR; [apply (IPW average); auto|]. intros us vs Hus Hvs. destruct (HG us vs Hus) as (b & Eb & _ & _ & B1 & B2 & _ & B3). exists b. split; [exact Eb|].
      destruct (HV us vs average (fun _ _ => 0)) as (V1 & V2 & V3 & V4 & _). cbv zeta. rewrite V1, V2, V3, V4, B1, B2, B3. reflexivity.
    + intros qh. eapply TR; [apply (DR average qh); auto|]. intros us vs Hus Hvs. destruct (HG us vs Hus) as (b & Eb & _ & _ & B1 & B2 & _ & B3). exists b. split; [exact Eb|].
      destruct (HV us vs average qh) as (V1 & V2 & V3 & V4 & V5). cbv zeta. rewrite V1, V2, V3, V4, V5, B1, B2, B3. reflexivity.
Qed.

Lemma stratum_unique size : forall M, (forall k, (k < M)%nat -> (0 <= size k)%Z) -> forall (z : Z) b c, (b < M)%nat -> (c < M)%nat ->
  (zsumn b size <= z < zsumn (S b) size)%Z -> (zsumn c size <= z < zsumn (S c) size)%Z -> b = c.
Proof.
  intros M Hp z b c Hb Hc H1 H2.
  assert (Mono : forall x y, (x <= y <= M)%nat -> (zsumn x size <= zsumn y size)%Z).
  { intros x y. induction y as [|y IH]; intros Hxy; [replace x with 0%nat by lia; lia|]. destruct (Nat.eq_dec x (S y)) as [->|]; [lia|]. cbn [zsumn]. specialize (IH ltac:(lia)). specialize (Hp y ltac:(lia)). lia. }
  destruct (Nat.lt_trichotomy b c) as [L|[E|L]]; auto; exfalso.
  - pose proof (Mono (S b) c ltac:(lia)). lia.
  - pose proof (Mono (S c) b ltac:(lia)). lia.
Qed.

Definition seen {A : Type} (d : dist A) (x : A) : Prop := exists p, In (x, p) d /\ p <> 0.

(** When the contexts are drawn independently from one law, every logger has all actions and the shares are whole numbers of rounds, the
    balanced estimator is unbiased. *)
Theorem C155_random_contexts : forall tn argsort coin d n M beta rho (share : nat -> nat) g (q pe : list R -> nat -> R) (contexts : dist (list R)),
  sorts argsort -> fair_coin coin -> possible_coin coin -> (0 < ds_K d)%nat -> ds_deficient d = 0%nat -> (0 < n)%nat -> (0 < M)%nat ->
  (forall k, (k < M)%nat -> 0 <= rho k) -> sumn M rho = 1 -> (forall k, (k < M)%nat -> INR n * rho k = INR (share k)) ->
  is_dist contexts -> ds_binary d = true -> (forall x a, seen contexts x -> (a < ds_K d)%nat -> 0 <= q x a <= 1) ->
  (forall context, length context = n -> (forall x, In x context -> seen contexts x) -> mean_table d context n (fun i a => q (nth i context []) a)) ->
  (forall x a, seen contexts x -> (a < ds_K d)%nat -> 0 <= pe x a) -> (forall x, seen contexts x -> sumn (ds_K d) (pe x) = 1) ->
  let K := ds_K d in
  exists v : list (list R) -> R,
    (forall context, length context = n -> (forall x, In x context -> seen contexts x) ->
       let dist := tab3F n K 1 (fun i a _ => pe (nth i context []) a) in
       estimates n (fun us vs => multi_batch tn (fun _ => us) argsort d (tab M beta) (tab M rho) (Z.of_nat n) context (tabR2 n K g) (fun i p => coin (vs i) p))
         (fun b => mb_ipw_value PInf false (map Fin (b_reward (mb_batch b))) (map Z.of_nat (b_action (mb_batch b))) dist (Some (map Fin (mb_pscore_avg b))) None None) (v context)) /\
    expect (dprod n (fun _ => contexts)) v = expect contexts (fun x => sumn K (fun a => pe x a * q x a)).
Proof.
  intros tn argsort coin d n M beta rho share g q pe contexts Hs Hcoin Hposs HK Hd Hn HM Hr Hr1 Hsh HD Hb Hq Hm E0 E1 K.
  set (size := fun k => Z.of_nat (share k)).
  assert (Esz : strata_sizes n (tab M rho) = tab M size) by (apply C60_exact; auto).
  assert (Hpos : forall k, (k < M)%nat -> (0 <= size k)%Z) by (intros; unfold size; lia).
  assert (Hsum : zsumn M size = Z.of_nat n).
  { destruct (C60_sizes n M rho HM) as (size' & E' & _ & H2). rewrite Esz in E'. rewrite <- H2. apply zsumn_ext. apply tab_inj. auto. }
  destruct (fill_blocks n M size Hpos Hsum) as (blk & _ & HB).
  set (fb := fun k x => full_boltzmann K (beta k) (q x)).
  set (average := fun x a => sumn M (fun k => rho k * fb k x a)).
  set (term := fun k x => sumn K (fun a => pe x a * (fb k x a / average x a * q x a))).
  exists (fun context => avg n (fun i => term (blk i) (nth i context []))). split.
  - intros context HL HC dist.
    assert (HN : forall i, (i < n)%nat -> seen contexts (nth i context [])) by (intros; apply HC, nth_In; lia).
    destruct (C155_draws tn argsort coin d n M beta rho size context g (fun i a => q (nth i context []) a)) as (pi & S & stratum & HP & HS & H); auto; [lia|].
    specialize (H (fun i a => pe (nth i context []) a)). cbv zeta in H. destruct H as (_ & _ & _ & H); auto.
    destruct (H Hr Hr1) as [HI _]. fold K in HI. fold dist in HI. eapply eq_ind; [exact HI|]. apply avg_ext. intros i Hi. unfold term. apply sumn_ext. intros a Ha.
    f_equal. f_equal. f_equal. destruct (HP i Hi) as (P1 & P2 & _). rewrite Hd in P1, P2. rewrite Nat.sub_0_r in P1. cbn [Nat.eqb] in P2.
    rewrite (full_softmax _ _ _ _ _ _ P1 P2 a Ha). unfold fb, K. f_equal. f_equal. destruct (HS i Hi) as [A1 A2]. destruct (HB i Hi) as [B1 B2]. eapply stratum_unique; eauto.
  - rewrite (expect_dprod_avg n (fun _ => contexts) (fun i x => term (blk i) x) []) by auto.
    unfold avg. rewrite (stratum_sum size blk (fun k => expect contexts (fun x => term k x)) M n Hpos Hsum HB).
    assert (N : INR n <> 0) by (apply not_0_INR; lia).
    rewrite (sumn_ext M _ (fun k => INR n * (rho k * expect contexts (fun x => term k x)))) by (intros k Hk; unfold size; rewrite <- INR_IZR_INZ, <- Hsh by auto; ring).
    rewrite (sumn_scal M (INR n)). replace (INR n * sumn M (fun k => rho k * expect contexts (fun x => term k x)) / INR n) with (sumn M (fun k => rho k * expect contexts (fun x => term k x))) by (field; auto).
    rewrite (sumn_ext M _ (fun k => expect contexts (fun x => rho k * term k x))) by (intros; rewrite expect_scal; reflexivity).
    rewrite <- expect_sumn. apply expect_ext_all. intros x. unfold term.
    rewrite (sumn_ext M _ (fun k => sumn K (fun a => rho k * (pe x a * (fb k x a / average x a * q x a))))) by (intros; symmetry; apply sumn_scal).
    rewrite sumn_swap. apply sumn_ext. intros a Ha.
    assert (A : 0 < average x a) by (apply (C60_average_policy n K M beta rho (q x) size); auto).
    rewrite (sumn_ext M _ (fun k => (pe x a * q x a / average x a) * (rho k * fb k x a))) by (intros; field; lra).
    rewrite sumn_scal. fold (average x a). field. lra.
Qed.

(** Given the contexts it is not: two rounds, one by each of two loggers, a different best action in each round. *)
Definition ex_two : synth := mkSynth 2 1 true (Some (fun context => map (fun x => [hd 0 x; 1 - hd 0 x]) context)) [] 1 1 0 None 7 (10 ^ 10).

Theorem C155_fixed_contexts :
  let pe (i a : nat) := if Nat.eqb a 0 then 1 else 0 in
  let dist := tab3F 2 2 1 (fun i a _ => pe i a) in
  let generate us vs := multi_batch ex_tn (fun _ => us) insertion_argsort ex_two (tab 2 (fun k => if Nat.eqb k 0 then 0 else ln 3)) (tab 2 (fun _ => 1 / 2)) 2 [[1]; [0]] (tabR2 2 2 (fun _ _ => 0)) (fun i p => Rltb (vs i) p) in
  (forall us vs, unit_draws us -> unit_draws vs -> exists b, generate us vs = Ok b /\ ground_truth (map (map Fin) (b_expected (mb_batch b))) dist = Ok (Fin (1 / 2))) /\
  estimates 2 generate (fun b => mn_ipw_value PInf false (map Fin (b_reward (mb_batch b))) (map Z.of_nat (b_action (mb_batch b))) dist (Some (map Fin (b_pscore (mb_batch b)))) None None) (1 / 2) /\
  estimates 2 generate (fun b => mb_ipw_value PInf false (map Fin (b_reward (mb_batch b))) (map Z.of_nat (b_action (mb_batch b))) dist (Some (map Fin (mb_pscore_avg b))) None None) (2 / 5).
Proof.
  intros pe dist generate.
  set (m := fun i a : nat => if Nat.eqb i a then 1 else 0).
  destruct (C155_draws ex_tn insertion_argsort (fun v p => Rltb v p) ex_two 2 2 (fun k => if Nat.eqb k 0 then 0 else ln 3) (fun _ => 1 / 2) (fun _ => 1%Z) [[1]; [0]] (fun _ _ => 0) m)
    as (pi & S & stratum & HP & HS & H); auto using insertion_argsort_sorts, less_is_coin, less_is_possible.
  - cbn. lia.
  - unfold mean_table, ex_two. cbn [ds_fun map hd ds_K]. unfold tabR2, tab, m. cbn. rewrite !Rminus_0_r, Rminus_eq_0. reflexivity.
  - rewrite (C60_exact 2 2 (fun _ => 1 / 2) (fun _ => 1%nat)); [reflexivity|lia|cbn; lra|]. intros. cbn. lra.
  - intros. lia.
  - intros i a _ _. unfold m. destruct (Nat.eqb i a); lra.
  - specialize (H pe). cbv zeta in H. destruct H as (_ & H1 & H2 & H3).
    + intros i a _ _. unfold pe. destruct (Nat.eqb a 0); lra.
    + intros i _. cbn. lra.
    + assert (S0 : stratum 0%nat = 0%nat).
      { destruct (HS 0%nat ltac:(lia)) as [A B]. destruct (stratum 0%nat) as [|[|k]]; auto; [cbn in B; lia|lia]. }
      assert (F : forall i a, (i < 2)%nat -> (a < 2)%nat -> pi i a = full_boltzmann 2 (if Nat.eqb (stratum i) 0 then 0 else ln 3) (m i) a).
      { intros i a Hi Ha. destruct (HP i Hi) as (P1 & P2 & _). cbn in P1, P2. apply (full_softmax _ _ _ _ _ _ P1 P2 a Ha). }
      assert (E3 : exp (ln 3) = 3) by (apply exp_ln; lra).
      change (ds_K ex_two) with 2%nat in H1, H2, H3. change (Z.of_nat 2) with 2%Z in H1, H2, H3. fold generate in H1, H2, H3. fold dist in H1, H2, H3.
      assert (V : avg 2 (fun i => sumn 2 (fun a => pe i a * m i a)) = 1 / 2) by (unfold avg, pe, m; cbn [sumn Nat.eqb INR]; lra).
      rewrite V in H1. split; [exact H1|]. split.
      * rewrite V in H2. apply H2. intros i a Hi Ha _. rewrite F by auto. apply full_boltzmann_dist. lia.
      * destruct (H3 ltac:(intros; lra) ltac:(cbn; lra)) as [G _]. eapply eq_ind; [exact G|].
        unfold avg. cbn [sumn]. rewrite !F by lia. unfold pe, m, full_boltzmann. cbn [sumn Nat.eqb]. rewrite S0. cbn [Nat.eqb].
        rewrite ?Rmult_1_r, ?Rmult_0_r, ?exp_0, ?E3. replace (INR 2) with 2 by (cbn; lra). lra.
Qed.

(** Two contexts, equally likely, two loggers, four rounds. *)
Example C155_example : let contexts := [([1], 1 / 2); ([0], 1 / 2)] in
  is_dist contexts /\ ds_deficient ex_two = 0%nat /\ ds_binary ex_two = true /\ (forall k, (k < 2)%nat -> INR 4 * (1 / 2) = INR 2) /\ sumn 2 (fun _ => 1 / 2) = 1 /\
  (forall context, length context = 4%nat -> (forall x, In x context -> seen contexts x) ->
     mean_table ex_two context 4 (fun i a => if Nat.eqb a 0 then hd 0 (nth i context []) else 1 - hd 0 (nth i context []))) /\
  (forall x a, seen contexts x -> 0 <= (if Nat.eqb a 0 then hd 0 x else 1 - hd 0 x) <= 1).
Proof.
  intros contexts. split; [|split; [reflexivity|split; [reflexivity|split; [|split; [|split]]]]].
  - split; [|cbn; lra]. intros x p [E|[E|[]]]; injection E; intros; subst; lra.
  - intros. cbn. lra.
  - cbn. lra.
  - intros context HL _. unfold mean_table, ex_two. cbn [ds_fun ds_K]. destruct context as [|x0 [|x1 [|x2 [|x3 [|]]]]]; try discriminate HL. reflexivity.
  - intros x a (p & [E|[E|[]]] & _); injection E; intros; subst; cbn [hd]; destruct (Nat.eqb a 0); lra.
Qed.

Print Assumptions C155_draws.
Print Assumptions C155_random_contexts.
Print Assumptions C155_fixed_contexts.
