(** * P_EnvSim: the simulated environment (C129) and the rewards a policy collects in it (C130). *)

From Coq Require Import Reals List ZArith Bool Lia Lra.
From Verif Require Import Num NpList M_Utils M_Feedback M_Sim M_EnvSim S_Base S_Prob S_Sim S_EnvSim
  L_Num L_Base L_Prob L_Slate L_Sim P_Sim.
Import ListNotations.
Open Scope R_scope.

(** ** C129 *)

Lemma bernoulli_ok flip n K (mu : nat -> nat -> R) : (forall i a, (i < n)%nat -> (a < K)%nat -> 0 <= mu i a <= 1) ->
  env_bernoulli flip (tab2F n K mu) = Ok (tab2F n K (fun i a => if flip i a (mu i a) then 1 else 0)).
Proof.
  intros H. unfold env_bernoulli. replace (existsb _ _) with false.
  - cbn [raise_if bind]. f_equal. unfold tab2F, tabF. rewrite tab_length. change (seq 0 n) with (map (fun i : nat => i) (seq 0 n)) || idtac.
    assert (E : forall (A : Type) m (f : nat -> A), combine (seq 0 m) (tab m f) = tab m (fun i => (i, f i))).
    { intros A m f. replace (seq 0 m) with (tab m (fun i => i)) by (unfold tab; apply map_id). apply combine_tab. }
    rewrite E, map_tab. apply tab_ext. intros i Hi. cbn [fst snd]. rewrite tab_length, E, map_tab. apply tab_ext. intros a Ha. reflexivity.
  - symmetry. apply existsb_false_forall. apply Forall_forall. intros row Hr. apply In_tab in Hr as (i & Hi & <-).
    apply existsb_false_forall. apply Forall_forall. intros x Hx. apply In_tab in Hx as (a & Ha & <-). destruct (H i a Hi Ha) as (H0 & H1).
    simpl. rewrite (proj2 (Rleb_true _ _) H0), (proj2 (Rleb_true _ _) H1). reflexivity.
Qed.

(** The constructor accepts at least two actions, a positive context dimension, a random state, and one context per
    action; the default action contexts are the identity matrix. *)
Theorem C129_constructor : forall n_actions dim rs f d actx draws,
  let ok := (2 <= n_actions)%Z /\ (1 <= dim)%Z /\ rs <> None /\ (forall a, actx = Some a -> Z.of_nat (length a) = n_actions) in
  (ok -> exists env, env_init n_actions dim rs f d actx draws = Ok env /\
           es_n_actions env = n_actions /\ es_reward_function env = f /\ es_delay_function env = d /\
           (f = None -> es_expected env = draws) /\
           es_action_context env = match actx with Some a => a | None => tab2F (Z.to_nat n_actions) (Z.to_nat n_actions) (fun i j => if Nat.eqb i j then 1 else 0) end) /\
  (~ ok -> env_init n_actions dim rs f d actx draws = Err ValueError).
Proof.
  intros K dim rs f d actx draws ok. unfold env_init, check_scalar_Z.
  destruct (Z.ltb_spec K 2); cbn [raise_if bind]; [split; [unfold ok; lia|auto]|].
  destruct (Z.ltb_spec dim 1); cbn [raise_if bind]; [split; [unfold ok; lia|auto]|].
  destruct rs as [z|]; cbn [bind]; [|split; [unfold ok; tauto|auto]].
  destruct actx as [a|].
  - destruct (Z.eqb_spec (Z.of_nat (length a)) K) as [E|E]; cbn [negb raise_if bind].
    + split; [|intros N; exfalso; apply N; unfold ok; repeat split; auto; try discriminate; intros a' Ea; injection Ea as <-; auto].
      intros _. eexists. split; [reflexivity|]. repeat split; auto. intros ->. reflexivity.
    + split; [|auto]. unfold ok. intros (_ & _ & _ & N). exfalso. apply E, N. reflexivity.
  - cbn [bind]. split; [|intros N; exfalso; apply N; unfold ok; repeat split; auto; discriminate].
    intros _. eexists. split; [reflexivity|]. repeat split; auto. intros ->. reflexivity.
Qed.

(** A batch: the contexts that were drawn, for every round and action an independent 0/1 reward drawn with the expected
    reward as probability, and the delays; iterating it gives these rounds in order, all of the shape the policy simulator
    needs. *)
Theorem C129_batch : forall env flip n K ctx mu dl, (1 <= n)%nat ->
  env_expected env (tab n ctx) = Ok (tab2F n K mu) -> (forall i a, (i < n)%nat -> (a < K)%nat -> 0 <= mu i a <= 1) ->
  match es_delay_function env, dl with
  | None, None => True
  | Some f, Some d => f n (tab2F n K mu) = Ok (tab n d) /\ forall i, (i < n)%nat -> length (d i) = K
  | _, _ => False
  end ->
  exists b rounds,
    env_next_batch env flip (Z.of_nat n) (tab n ctx) = Ok (b, tab2F n K mu, es_action_context env) /\
    bs_for b = Ok rounds /\
    rounds = tab n (fun i => mkBround (Vec (ctx i)) (tabF K (fun a => if flip i a (mu i a) then 1 else 0)) (option_map (fun d => d i) dl)) /\
    Forall (shaped_round K) rounds.
Proof.
  intros env flip n K ctx mu dl Hn He Hmu Hd. unfold env_next_batch, check_scalar_Z.
  replace (Z.ltb (Z.of_nat n) 1) with false by (symmetry; apply Z.ltb_ge; lia). cbn [raise_if bind]. rewrite He. cbn [bind].
  rewrite bernoulli_ok by auto. cbn [bind]. rewrite tab_length, Nat2Z.id.
  assert (E : match es_delay_function env with None => Ok None | Some f => d <- f n (tab2F n K mu) ;; Ok (Some d) end = Ok (option_map (tab n) dl)).
  { destruct (es_delay_function env), dl; try easy. destruct Hd as (-> & _). reflexivity. }
  rewrite E. cbn [bind]. eexists _, _. split; [reflexivity|].
  change (tab2F n K (fun i a => if flip i a (mu i a) then 1 else 0)) with (tab n (fun i => tabF K (fun a => if flip i a (mu i a) then 1 else 0))).
  rewrite (C78_bandit_rounds_iteration n 0 ctx (fun i => tabF K (fun a => if flip i a (mu i a) then 1 else 0)) dl).
  split; [reflexivity|]. split; [reflexivity|]. apply Forall_forall. intros rd Hrd. apply In_tab in Hrd as (i & Hi & <-).
  split; cbn [br_rewards br_delays].
  - unfold tabF. apply tab_length.
  - destruct (es_delay_function env), dl; try easy. cbn. apply Hd; auto.
Qed.

(** [sample_reward] draws from the same probabilities; without a reward function they do not depend on the context. *)
Theorem C129_sample_reward : forall env flip n K ctx mu,
  env_expected env (tab n ctx) = Ok (tab2F n K mu) -> (forall i a, (i < n)%nat -> (a < K)%nat -> 0 <= mu i a <= 1) ->
  env_sample_reward env flip 2 (tab n ctx) = Ok (tab2F n K (fun i a => if flip i a (mu i a) then 1 else 0)) /\
  forall ndim, ndim <> 2%nat -> env_sample_reward env flip ndim (tab n ctx) = Err ValueError.
Proof.
  intros env flip n K ctx mu He Hmu. unfold env_sample_reward. split.
  - cbn [Nat.eqb negb raise_if bind]. rewrite He. cbn [bind]. apply bernoulli_ok; auto.
  - intros ndim H. rewrite (proj2 (Nat.eqb_neq _ _) H). reflexivity.
Qed.
Theorem C129_context_free : forall n K dim rs d actx (u : nat -> R) env ctx,
  env_init (Z.of_nat K) dim rs None d actx (tabF K u) = Ok env -> env_expected env (tab n ctx) = Ok (tab2F n K (fun _ => u)).
Proof.
  intros n K dim rs d actx u env ctx H. destruct (C129_constructor (Z.of_nat K) dim rs None d actx (tabF K u)) as (H1 & H2). cbn zeta in *.
  assert (E : es_reward_function env = None /\ es_expected env = tabF K u).
  { destruct (Z_le_gt_dec 2 (Z.of_nat K)); [|rewrite H2 in H by lia; discriminate].
    destruct (Z_le_gt_dec 1 dim); [|rewrite H2 in H by lia; discriminate].
    destruct rs; [|rewrite H2 in H by tauto; discriminate].
    assert (Hok : forall a, actx = Some a -> Z.of_nat (length a) = Z.of_nat K).
    { intros a Ea. destruct (Z.eq_dec (Z.of_nat (length a)) (Z.of_nat K)) as [|N]; auto. rewrite H2 in H by (intros (_ & _ & _ & A); auto). discriminate. }
    destruct H1 as (env' & E' & _ & Ef & _ & Ee & _). { repeat split; auto; discriminate. } rewrite E' in H. injection H as <-. auto. }
  unfold env_expected. destruct E as (-> & ->). unfold contextfree_expected_reward. rewrite map_tab. reflexivity.
Qed.

(** An expected reward that is not a probability (as continuous reward functions return) is a ValueError in every method
    that draws rewards: the environment is binary whatever [reward_type] says. *)
Theorem C129_not_a_probability : forall env flip context p row x, env_expected env context = Ok p -> In row p -> In x row ->
  (forall v, x = Fin v -> ~ (0 <= v <= 1)) ->
  env_sample_reward env flip 2 context = Err ValueError /\ env_next env flip context = Err ValueError /\
  forall n, env_next_batch env flip n context = Err ValueError.
Proof.
  intros env flip context p row x He Hr Hx Hv.
  assert (Hb : env_bernoulli flip p = Err ValueError).
  { unfold env_bernoulli. replace (existsb _ p) with true; auto. symmetry. apply existsb_exists. exists row. split; auto.
    apply existsb_exists. exists x. split; auto. destruct x as [v| | |]; auto. simpl. specialize (Hv v eq_refl).
    destruct (Rleb 0 v) eqn:E1; auto. destruct (Rleb v 1) eqn:E2; auto. apply Rleb_true in E1, E2. tauto. }
  unfold env_sample_reward, env_next, env_next_batch. rewrite He. cbn [Nat.eqb negb raise_if bind]. rewrite Hb. cbn [bind].
  split; auto. split; auto. intros n. unfold check_scalar_Z. destruct (Z.ltb n 1); reflexivity.
Qed.

(** A single round hands out the context as a matrix of one row, and only the context of action 0. *)
Theorem C129_single_round : forall env flip K c mu dl a0 actx,
  env_expected env [c] = Ok (tab2F 1 K mu) -> (forall a, (a < K)%nat -> 0 <= mu 0%nat a <= 1) ->
  match es_delay_function env, dl with None, None => True | Some f, Some d => f 1%nat (tab2F 1 K mu) = Ok [d] | _, _ => False end ->
  es_action_context env = a0 :: actx ->
  env_next env flip [c] = Ok (mkBround (Mat [c]) (tabF K (fun a => if flip 0%nat a (mu 0%nat a) then 1 else 0)) dl, tabF K (mu 0%nat), a0).
Proof.
  intros env flip K c mu dl a0 actx He Hmu Hd Ha. unfold env_next. rewrite He. cbn [bind].
  rewrite bernoulli_ok. 2:{ intros i a Hi. replace i with 0%nat by lia. auto. }
  cbn [bind]. rewrite Ha. destruct (es_delay_function env), dl; try easy. rewrite Hd. reflexivity.
Qed.

(** ** C130 *)

Section Expected.
Context {P : Type} (pol : policy P) (w : world) (p0 : P).
Hypothesis (Tot : total_policy (wd_K w) pol) (Wok : world_ok w).

(** What the policy does in context [x] after the rounds played so far. *)
Let act (s : sim P) (x : nd) : Z := match snd (sim_select_action pol (sm_policy s) x) with Ok a => a | Err _ => 0%Z end.

Lemma act_spec s x : snd (sim_select_action pol (sm_policy s) x) = Ok (act s x) /\ (py_index (wd_K w) (act s x) < wd_K w)%nat /\
  (- Z.of_nat (wd_K w) <= act s x < Z.of_nat (wd_K w))%Z.
Proof.
  assert (H : exists a, snd (sim_select_action pol (sm_policy s) x) = Ok a /\ (- Z.of_nat (wd_K w) <= a < Z.of_nat (wd_K w))%Z).
  { unfold sim_select_action. destruct Tot as (T1 & T2 & _). destruct (pol_type pol); [| |congruence]; cbn [snd].
    - destruct (T2 (sm_policy s) None) as (a & l & E & Ha). rewrite E. cbn [bind]. exists a. split; auto.
    - destruct (T2 (sm_policy s) (Some (expand0 x))) as (a & l & E & Ha). rewrite E. cbn [bind]. exists a. split; auto. }
  destruct H as (a & E & Ha). unfold act. rewrite E. split; auto. split; auto.
  unfold py_index. destruct (Z.ltb_spec a 0); lia.
Qed.

Lemma np_get_index {A} (l : list A) a d : (- Z.of_nat (length l) <= a < Z.of_nat (length l))%Z -> np_get l a = Ok (nth (py_index (length l) a) l d).
Proof.
  intros H. unfold np_get, py_index. set (i := if Z.ltb a 0 then (a + Z.of_nat (length l))%Z else a).
  assert (Hi : (0 <= i < Z.of_nat (length l))%Z) by (unfold i; destruct (Z.ltb_spec a 0); lia).
  cbv zeta. fold i. rewrite (proj2 (Z.leb_le _ _)), (proj2 (Z.ltb_lt _ _)) by lia. cbn [andb].
  rewrite (nth_error_nth' l d) by lia. reflexivity.
Qed.

Lemma deliver_keeps av : forall s, sm_actions (fst (deliver pol s av)) = sm_actions s /\ sm_contexts (fst (deliver pol s av)) = sm_contexts s /\
  sm_total (fst (deliver pol s av)) = sm_total s.
Proof.
  induction av as [|t av IH]; intros s; simpl; auto. destruct (a <- np_get (sm_actions s) (Z.of_nat t);; _) as [[[a c] r]|e]; cbn; auto.
  destruct (snd (sim_update_policy pol (sm_policy s) c a r)); cbn [fst]; auto. destruct (IH (set_policy s (fst (sim_update_policy pol (sm_policy s) c a r)))) as (-> & -> & ->). auto.
Qed.

Lemma step_fields s rd : length (br_rewards rd) = wd_K w -> let s' := fst (sim_step pol s rd) in
  sm_actions s' = sm_actions s ++ [act s (br_context rd)] /\ sm_contexts s' = sm_contexts s ++ [br_context rd] /\
  sm_total s' = nadd (sm_total s) (nth (py_index (wd_K w) (act s (br_context rd))) (br_rewards rd) NaN).
Proof.
  intros Hl. destruct (act_spec s (br_context rd)) as (E & _ & Hr). unfold sim_step. rewrite E.
  rewrite (np_get_index (br_rewards rd) _ NaN) by (rewrite Hl; auto). rewrite Hl.
  destruct (br_delays rd) as [dl|].
  - destruct (np_get dl (act s (br_context rd))) as [d|e]; cbn; auto. unfold delayed_update_policy.
    match goal with |- context[deliver pol ?u ?av] => destruct (deliver_keeps av u) as (F1 & F2 & F3); destruct (deliver pol u av) as [s1 [[]|e]] end; cbn in *; auto.
  - destruct (snd (sim_update_policy pol _ _ _ _)); cbn; auto.
Qed.

Lemma steps_snoc rs rd : forall s, snd (sim_steps pol s rs) = Ok tt -> fst (sim_steps pol s (rs ++ [rd])) = fst (sim_step pol (fst (sim_steps pol s rs)) rd).
Proof.
  induction rs as [|r rs IH]; intros s; simpl.
  - intros _. destruct (snd (sim_step pol s rd)); reflexivity.
  - destruct (snd (sim_step pol s r)); [|discriminate]. intros H. apply IH; auto.
Qed.

Lemma bernoulli_dist p : 0 <= p <= 1 -> is_dist (bernoulli p).
Proof. intros H. split; [intros a q [E|[E|[]]]; injection E as <- <-; lra|simpl; lra]. Qed.
Lemma coins_dist t x : is_dist (dprod (wd_K w) (fun a => bernoulli (wd_mu w t x a))).
Proof. apply is_dist_dprod. intros a Ha. apply bernoulli_dist, (wo_mu w Wok); auto. Qed.
Lemma round_is_dist t : is_dist (world_round w t).
Proof. apply is_dist_dbind; [apply (wo_situation w Wok)|]. intros. apply is_dist_dmap, coins_dist. Qed.
Lemma episode_is_dist T : is_dist (episode w T).
Proof. apply is_dist_dprod. intros. apply round_is_dist. Qed.

Lemma round_shaped t rd q : In (rd, q) (world_round w t) -> q <> 0 -> shaped_round (wd_K w) rd.
Proof.
  intros H Hq. apply In_dbind in H as ([x d] & p1 & p2 & H1 & H2 & ->). apply In_dmap in H2 as (rs & -> & H2).
  apply In_dprod in H2 as (Hl & _); [|intros ->; apply Hq; lra]. split; cbn [br_rewards br_delays].
  - rewrite map_length. auto.
  - cbn [snd]. destruct d as [d|]; auto. eapply (wo_delays w Wok); eauto.
Qed.
Lemma episode_shaped T rs q : In (rs, q) (episode w T) -> q <> 0 -> length rs = T /\ forall rd, In rd rs -> shaped_round (wd_K w) rd.
Proof.
  intros H Hq. apply In_dprod in H as (Hl & Hi); auto. split; auto. intros rd Hrd. apply (In_nth _ _ no_round) in Hrd as (i & Hlt & <-).
  destruct (Hi i no_round) as (q' & H1 & H2); [lia|]. eapply round_shaped; eauto.
Qed.

Let run (rs : list bround) : sim P := fst (sim_steps pol (sim_new p0) rs).

Lemma run_ok rs : (forall rd, In rd rs -> shaped_round (wd_K w) rd) -> snd (sim_steps pol (sim_new p0) rs) = Ok tt.
Proof.
  intros H. destruct (C77_no_spurious_failure (wd_K w) pol p0 rs Tot H) as (s & s' & E & _).
  destruct (C77_recording_is_transparent pol p0 rs) as ((log & F) & _). rewrite F in E. injection E as _ E. exact E.
Qed.

(** Over a round: the reward has, given the context, the expected reward of the chosen action as its mean. *)
Lemma run_snoc rs rd : (forall r, In r rs -> shaped_round (wd_K w) r) -> length (br_rewards rd) = wd_K w ->
  sm_actions (run (rs ++ [rd])) = sm_actions (run rs) ++ [act (run rs) (br_context rd)] /\
  sm_contexts (run (rs ++ [rd])) = sm_contexts (run rs) ++ [br_context rd] /\
  sm_total (run (rs ++ [rd])) = nadd (sm_total (run rs)) (nth (py_index (wd_K w) (act (run rs) (br_context rd))) (br_rewards rd) NaN).
Proof. intros H Hl. unfold run. rewrite steps_snoc by (apply run_ok; auto). apply step_fields; auto. Qed.

Lemma run_fields T : forall rs q, In (rs, q) (episode w T) -> q <> 0 ->
  length (sm_actions (run rs)) = T /\ length (sm_contexts (run rs)) = T /\ exists v, sm_total (run rs) = Fin v.
Proof.
  induction T as [|T IH]; intros rs q H Hq.
  - destruct H as [H|[]]. injection H as <- <-. cbn. eauto.
  - apply In_dbind in H as (o & p1 & p2 & H1 & H2 & ->). apply In_dmap in H2 as (rd & -> & H2).
    assert (Hp1 : p1 <> 0) by (intros ->; apply Hq; lra). assert (Hp2 : p2 <> 0) by (intros ->; apply Hq; lra).
    destruct (IH o p1 H1 Hp1) as (L1 & L2 & v & Ev). destruct (episode_shaped T o p1 H1 Hp1) as (_ & Hsh).
    destruct (round_shaped T rd p2 H2 Hp2) as (Hl & _). destruct (run_snoc o rd Hsh Hl) as (F1 & F2 & F3).
    rewrite F1, F2, F3, !app_length, L1, L2, Ev. cbn [length]. split; [lia|split; [lia|]].
    apply In_dbind in H2 as ([x d] & q1 & q2 & H2 & H3 & ->). apply In_dmap in H3 as (rw & -> & H3). cbn [br_rewards br_context] in *.
    rewrite map_length in Hl. destruct (act_spec (run o) x) as (_ & Hi & _). cbn [fst].
    rewrite (nth_indep _ NaN (Fin 0)), map_nth by (rewrite map_length; lia). cbn. eauto.
Qed.

Lemma mean_snoc T rs rd : (forall r, In r rs -> shaped_round (wd_K w) r) -> length (br_rewards rd) = wd_K w ->
  length (sm_actions (run rs)) = T -> length (sm_contexts (run rs)) = T ->
  (forall t, (t < T)%nat -> mean_reward w (run (rs ++ [rd])) t = mean_reward w (run rs) t) /\
  mean_reward w (run (rs ++ [rd])) T = wd_mu w T (br_context rd) (py_index (wd_K w) (act (run rs) (br_context rd))).
Proof.
  intros H Hl L1 L2. destruct (run_snoc rs rd H Hl) as (F1 & F2 & _). unfold mean_reward. rewrite F1, F2. split.
  - intros t Ht. rewrite !app_nth1 by lia. reflexivity.
  - rewrite !app_nth2 by lia. rewrite L1, L2, Nat.sub_diag. reflexivity.
Qed.

Lemma coin_mean t x i : (i < wd_K w)%nat -> expect (dprod (wd_K w) (fun a => bernoulli (wd_mu w t x a))) (fun o => nth i o 0) = wd_mu w t x i.
Proof.
  intros Hi. rewrite (expect_ext_all _ _ (fun o => sumn (wd_K w) (fun j => (if Nat.eqb j i then 1 else 0) * nth j o 0))).
  2:{ intros o. rewrite (sumn_term _ _ i) by (auto; intros j _ Hj; rewrite (proj2 (Nat.eqb_neq _ _) Hj); lra). rewrite Nat.eqb_refl. lra. }
  rewrite (expect_dprod_sumn (wd_K w) _ (fun j x => (if Nat.eqb j i then 1 else 0) * x) 0) by (intros a Ha; apply bernoulli_dist, (wo_mu w Wok); auto).
  rewrite (sumn_term _ _ i); auto.
  - rewrite Nat.eqb_refl. unfold bernoulli. simpl. lra.
  - intros j _ Hj. rewrite (proj2 (Nat.eqb_neq _ _) Hj). unfold bernoulli. simpl. lra.
Qed.

Lemma expected_total_aux : forall T,
  expect (episode w T) (fun rs => finite_or_0 (sm_total (run rs))) = expect (episode w T) (fun rs => sumn T (mean_reward w (run rs))).
Proof.
  induction T as [|T IH].
  - cbn. lra.
  - unfold episode. cbn [dprod]. rewrite !expect_dbind. fold (episode w T).
    transitivity (expect (episode w T) (fun o => finite_or_0 (sm_total (run o)) +
       expect (wd_situation w T) (fun xd => wd_mu w T (fst xd) (py_index (wd_K w) (act (run o) (fst xd)))))).
    + apply expect_ext. intros o q Ho Hq. rewrite expect_dmap. destruct (episode_shaped T o q Ho Hq) as (_ & Hsh).
      destruct (run_fields T o q Ho Hq) as (_ & _ & v & Ev). rewrite Ev. cbn [finite_or_0]. unfold world_round. rewrite expect_dbind.
      rewrite (expect_ext_all _ _ (fun xd => v + wd_mu w T (fst xd) (py_index (wd_K w) (act (run o) (fst xd))))).
      * rewrite expect_plus, expect_const by apply (wo_situation w Wok). reflexivity.
      * intros [x d]. rewrite expect_dmap. cbn [fst snd]. destruct (act_spec (run o) x) as (_ & Hi & _).
        rewrite (expect_ext _ _ (fun rw => v + nth (py_index (wd_K w) (act (run o) x)) rw 0)).
        -- rewrite expect_plus, expect_const by apply coins_dist. f_equal. apply coin_mean; auto.
        -- intros rw q' Hrw Hq'. apply In_dprod in Hrw as (Hl & _); auto.
           destruct (run_snoc o (mkBround x (map Fin rw) d) Hsh) as (_ & _ & F); [cbn; rewrite map_length; auto|]. cbn [br_context br_rewards] in F.
           rewrite F, Ev, (nth_indep _ NaN (Fin 0)), map_nth by (rewrite map_length; lia). reflexivity.
    + rewrite expect_plus, IH, <- expect_plus. apply expect_ext. intros o q Ho Hq. rewrite expect_dmap. destruct (episode_shaped T o q Ho Hq) as (_ & Hsh).
      destruct (run_fields T o q Ho Hq) as (L1 & L2 & _).
      rewrite (expect_ext (world_round w T) _ (fun rd => sumn T (mean_reward w (run o)) + wd_mu w T (br_context rd) (py_index (wd_K w) (act (run o) (br_context rd))))).
      * rewrite expect_plus, expect_const by apply round_is_dist. f_equal. unfold world_round. rewrite expect_dbind. apply expect_ext_all. intros [x d].
        rewrite expect_dmap. cbn [fst br_context]. rewrite expect_const; auto. apply coins_dist.
      * intros rd q' Hrd Hq'. destruct (round_shaped T rd q' Hrd Hq') as (Hl & _). destruct (mean_snoc T o rd Hsh Hl L1 L2) as (M1 & M2).
        cbn [sumn]. rewrite M2. f_equal. apply sumn_ext. auto.
Qed.

Lemma best_mean_ge t x a : (a < wd_K w)%nat -> wd_mu w t x a <= best_mean w t x.
Proof.
  intros Ha. unfold best_mean. assert (In (wd_mu w t x a) (tab (wd_K w) (wd_mu w t x))) as H by (apply In_tab; eauto).
  induction (tab (wd_K w) (wd_mu w t x)) as [|y l IH]; [easy|]. cbn [fold_right]. destruct H as [->|H]; [apply Rmax_l|].
  eapply Rle_trans; [apply IH; auto|apply Rmax_r].
Qed.

Lemma expected_best T : expect (episode w T) (fun rs => sumn T (fun t => best_mean w t (br_context (nth t rs no_round)))) =
  sumn T (fun t => expect (wd_situation w t) (fun xd => best_mean w t (fst xd))).
Proof.
  unfold episode. rewrite (expect_dprod_sumn T (world_round w) (fun t rd => best_mean w t (br_context rd)) no_round) by (intros; apply round_is_dist).
  apply sumn_ext. intros t _. unfold world_round. rewrite expect_dbind. apply expect_ext_all. intros [x d]. rewrite expect_dmap. cbn [fst br_context].
  rewrite expect_const; auto. apply coins_dist.
Qed.

Lemma run_contexts T : forall rs q, In (rs, q) (episode w T) -> q <> 0 -> forall t, (t < T)%nat ->
  nth t (sm_contexts (run rs)) (Vec []) = br_context (nth t rs no_round) /\
  exists s, nth t (sm_actions (run rs)) 0%Z = act s (br_context (nth t rs no_round)).
Proof.
  induction T as [|T IH]; intros rs q H Hq t Ht; [lia|].
  apply In_dbind in H as (o & p1 & p2 & H1 & H2 & ->). apply In_dmap in H2 as (rd & -> & H2).
  assert (Hp1 : p1 <> 0) by (intros ->; apply Hq; lra). assert (Hp2 : p2 <> 0) by (intros ->; apply Hq; lra).
  destruct (run_fields T o p1 H1 Hp1) as (L1 & L2 & _). destruct (episode_shaped T o p1 H1 Hp1) as (L0 & Hsh).
  destruct (round_shaped T rd p2 H2 Hp2) as (Hl & _). destruct (run_snoc o rd Hsh Hl) as (F1 & F2 & _). rewrite F1, F2.
  destruct (Nat.eq_dec t T) as [->|Hne].
  - rewrite !app_nth2, L0, L1, L2, Nat.sub_diag by lia. cbn [nth]. eauto.
  - rewrite !app_nth1 by lia. apply (IH o p1); auto. lia.
Qed.
End Expected.

(** No run fails, and the expected total reward is the expected sum of the expected rewards of the actions taken, whatever
    the policy learns from the (possibly delayed) feedback. *)
Theorem C130_expected_total {P} (pol : policy P) w p T : total_policy (wd_K w) pol -> world_ok w ->
  (forall rs q, In (rs, q) (episode w T) -> q <> 0 -> exists s v, sim_steps pol (sim_new p) rs = (s, Ok tt) /\ sm_total s = Fin v /\
     length (sm_actions s) = T) /\
  expect (episode w T) (fun rs => finite_or_0 (sm_total (fst (sim_steps pol (sim_new p) rs)))) =
  expect (episode w T) (fun rs => sumn T (mean_reward w (fst (sim_steps pol (sim_new p) rs)))).
Proof.
  intros HT HW. split.
  - intros rs q H Hq. destruct (run_fields pol w p HT HW T rs q H Hq) as (L & _ & v & Ev).
    destruct (episode_shaped w HW T rs q H Hq) as (_ & Hsh). pose proof (run_ok pol w p HT rs Hsh) as E.
    exists (fst (sim_steps pol (sim_new p) rs)), v. split; [rewrite <- E; apply surjective_pairing|auto].
  - apply expected_total_aux; auto.
Qed.

(** No policy expects more than the best action of every context, and a policy that always takes a best action gets it. *)
Theorem C130_best_possible {P} (pol : policy P) w p T : total_policy (wd_K w) pol -> world_ok w ->
  let expected := expect (episode w T) (fun rs => finite_or_0 (sm_total (fst (sim_steps pol (sim_new p) rs)))) in
  let best := sumn T (fun t => expect (wd_situation w t) (fun xd => best_mean w t (fst xd))) in
  expected <= best /\
  ((forall t q x a l, (t < T)%nat -> snd (pol_select pol q (visible (pol_type pol) x)) = Ok (a :: l) -> wd_mu w t x (py_index (wd_K w) a) = best_mean w t x) ->
   expected = best).
Proof.
  intros HT HW. cbv zeta. destruct (C130_expected_total pol w p T HT HW) as (_ & ->). rewrite <- (expected_best w HW T). split.
  - assert (E : forall f g : list bround -> R, (forall rs q, In (rs, q) (episode w T) -> q <> 0 -> f rs <= g rs) -> expect (episode w T) f <= expect (episode w T) g).
    { intros f g Hfg. destruct (episode_is_dist w HW T) as (Hpos & _). revert Hpos Hfg. induction (episode w T) as [|[rs q] d IH]; intros Hpos Hfg; [cbn; lra|].
      cbn. assert (H0 : 0 <= q) by (apply (Hpos rs); left; auto). assert (H1 : expect d f <= expect d g) by (apply IH; intros; [eapply Hpos|eapply Hfg]; try right; eauto).
      destruct (Req_dec q 0) as [->|Hq]; [apply Rplus_le_compat; [lra|auto]|]. assert (f rs <= g rs) by (eapply Hfg; [left|]; eauto). apply Rplus_le_compat; [apply Rmult_le_compat_r; auto|auto]. }
    apply E. intros rs q H Hq. apply sumn_le. intros t Ht. unfold mean_reward.
    destruct (run_contexts pol w p HT HW T rs q H Hq t Ht) as (-> & s & ->). apply best_mean_ge. apply (act_spec pol w HT).
  - intros Hbest. apply expect_ext. intros rs q H Hq. apply sumn_ext. intros t Ht. unfold mean_reward.
    destruct (run_contexts pol w p HT HW T rs q H Hq t Ht) as (-> & s & ->). set (x := br_context (nth t rs no_round)).
    destruct (act_spec pol w HT s x) as (E & _). set (a := match snd (sim_select_action pol (sm_policy s) x) with Ok a => a | Err _ => 0%Z end) in *.
    unfold sim_select_action in E. destruct HT as (HT1 & HT2 & _). unfold visible in Hbest.
    destruct (pol_type pol) eqn:Ety; [| |congruence]; cbn [snd] in E.
    + destruct (HT2 (sm_policy s) None) as (b & l & Eb & _). rewrite Eb in E. cbn in E. injection E as E. rewrite <- E. eapply (Hbest t); eauto.
    + destruct (HT2 (sm_policy s) (Some (expand0 x))) as (b & l & Eb & _). rewrite Eb in E. cbn in E. injection E as E. rewrite <- E. eapply (Hbest t); eauto.
Qed.

(** ** Concrete cases *)

(** Two actions with expected rewards 0.2 and 0.7 and no delays: a batch of [n] rounds. *)
Example C129_case : forall n ctx flip, (1 <= n)%nat -> exists env,
  env_init 2 1 (Some 1%Z) None None None (tabF 2 (fun a => if Nat.eqb a 0 then 0.2 else 0.7)) = Ok env /\
  exists b, env_next_batch env flip (Z.of_nat n) (tab n ctx) = Ok (b, tab2F n 2 (fun _ a => if Nat.eqb a 0 then 0.2 else 0.7), es_action_context env).
Proof.
  intros n ctx flip Hn. destruct (C129_constructor 2 1 (Some 1%Z) None None None (tabF 2 (fun a => if Nat.eqb a 0 then 0.2 else 0.7))) as (H & _).
  destruct H as (env & E & _ & _ & Ed & _). { repeat split; try lia; discriminate. }
  exists env. split; auto. pose proof (C129_context_free n 2 1 (Some 1%Z) None None _ env ctx E) as He.
  destruct (C129_batch env flip n 2 ctx _ None Hn He) as (b & rounds & Eb & _).
  - intros i a Hi Ha. destruct (Nat.eqb a 0); lra.
  - rewrite Ed. exact I.
  - eauto.
Qed.

(** An environment with an expected reward of 2. *)
Example C129_case_bad : exists env flip, env_next_batch env flip 1 [[Fin 0]] = Err ValueError.
Proof.
  exists (mkEnvSim 2 None None [Fin 2; Fin 0] [[Fin 1; Fin 0]; [Fin 0; Fin 1]]), (fun _ _ _ => true).
  eapply (C129_not_a_probability _ _ [[Fin 0]] [[Fin 2; Fin 0]] [Fin 2; Fin 0] (Fin 2)); try reflexivity; try (left; reflexivity).
  intros v E. injection E as <-. lra.
Qed.

(** Two equally likely contexts, action 0 pays in the first with probability 0.9, otherwise 0.3; feedback arrives two rounds late. *)
Definition ex_world : world := mkWorld 2
  (fun t => [((Vec [Fin 0], Some [2; 2]), 1 / 2); ((Vec [Fin 1], None), 1 / 2)])
  (fun t x a => match x, a with Vec [Fin v], O => if Reqb v 0 then 0.9 else 0.3 | _, _ => 0.3 end).
Example ex_world_ok : world_ok ex_world.
Proof.
  constructor.
  - intros t. split; cbn; [|lra]. intros a q [E|[E|[]]]; injection E as <- <-; lra.
  - intros t x d q [E|[E|[]]]; [injection E as <- <- <-; reflexivity|discriminate].
  - intros t x a _. cbn. destruct x as [[|[v| | |] [|]]|?|?|?]; destruct a; cbn; try lra; destruct (Reqb v 0); lra.
Qed.
Example C130_case : forall T, total_policy 2 ex_pol /\ world_ok ex_world /\
  expect (episode ex_world T) (fun rs => finite_or_0 (sm_total (fst (sim_steps ex_pol (sim_new tt) rs)))) <=
  sumn T (fun t => expect (wd_situation ex_world t) (fun xd => best_mean ex_world t (fst xd))).
Proof.
  intros T. split; [apply ex_total|]. split; [apply ex_world_ok|]. apply (C130_best_possible ex_pol ex_world tt T ex_total ex_world_ok).
Qed.

Print Assumptions C129_constructor.
Print Assumptions C129_batch.
Print Assumptions C129_sample_reward.
Print Assumptions C129_context_free.
Print Assumptions C129_not_a_probability.
Print Assumptions C129_single_round.
Print Assumptions C130_expected_total.
Print Assumptions C130_best_possible.
