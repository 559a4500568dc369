(** * P_Policy: theorems about the context-free online policies (C68, C69, C70, C91). *)

From Coq Require Import Reals List ZArith Lia Lra Bool Permutation.
From Verif Require Import Num NpList M_Utils M_Policy S_Base S_Tuning S_Policy L_Num L_Base L_Tuning L_Policy.
Import ListNotations.
Open Scope R_scope.

(** ** C68: selection returns a valid ranking *)

(** EpsilonGreedy and Random: whatever the history (including rejected updates, infinite or NaN rewards and
    re-initialisations), the epsilon, the uniform draw and the random permutation. *)
Theorem C68_epsilon_greedy_valid_ranking argsort K L B p epsilon u choice :
  (forall xs, is_argsort xs (argsort xs)) ->
  reachable any_reward (Z.of_nat K) (Z.of_nat L) B p ->
  is_ranking K L choice ->
  exists l, eg_select_action argsort epsilon p u choice = Ok l /\ is_ranking K L l.
Proof.
  intros Hs Hr Hc. apply reachable_shaped in Hr as (H1 & H2 & H3 & A1 & A2 & A3 & A4 & A5 & A6 & A7).
  rewrite !Nat2Z.id in *. unfold eg_select_action. destruct (nlt epsilon (Fin u)); [|eexists; split; [reflexivity|auto]].
  destruct (zminl (cf_action_counts p)) as [m|e] eqn:Em.
  2:{ destruct (cf_action_counts p); simpl in *; [lia|discriminate]. }
  cbn [bind]. destruct (0 <? m)%Z; [|eexists; split; [reflexivity|auto]].
  rewrite bcast2_same by (rewrite map_length; congruence). cbn [bind]. eexists. split; [reflexivity|].
  rewrite A2.
  match goal with |- is_ranking K L (top_k _ _ ?x) => assert (E : length x = K) end.
  { rewrite map_length, combine_length, map_length. lia. }
  rewrite <- E at 1. apply top_k_ranking; auto. lia.
Qed.

Example C68_epsilon_greedy_ex : exists l,
  eg_select_action isort (Fin 0) (fst (cf_update_params (fst (cf_update_params
     (after 2 2 1 []) 0 PInf)) 1 NaN)) (1/2) [1;0]%nat = Ok l /\ is_ranking 2 2 l.
Proof.
  apply (C68_epsilon_greedy_valid_ranking isort 2 2 1). exact isort_ok.
  - repeat (apply r_update; [|exact I]). apply r_new. apply (post_init_ok 2 2 1); lia.
  - repeat split; auto. repeat constructor; simpl; intuition discriminate. simpl; intuition lia.
Qed.

(** The greedy branch is taken exactly when the uniform draw exceeds epsilon and every action occurs in the
    committed history; it ranks by the committed mean rewards, best first. *)
Theorem C68_epsilon_greedy_order argsort K L B p0 h epsilon u choice :
  (forall xs, is_argsort xs (argsort xs)) ->
  cf_post_init (Z.of_nat K) (Z.of_nat L) (Z.of_nat B) = Ok p0 ->
  (forall e, In e h -> valid_action K (fst e)) ->
  let h' := committed B h in
  (epsilon < u /\ (forall a, (a < K)%nat -> (0 < times K h' a)%nat) ->
   exists l, eg_select_action argsort (Fin epsilon) (updates p0 h) u choice = Ok l /\
             best_first K L (fun a => total K h' a / INR (times K h' a)) l) /\
  (~ (epsilon < u /\ (forall a, (a < K)%nat -> (0 < times K h' a)%nat)) ->
   eg_select_action argsort (Fin epsilon) (updates p0 h) u choice = Ok choice).
Proof.
  intros Hs H0 Hv h'. pose proof (post_init_inv _ _ _ _ H0) as (H1 & H2 & H3 & _).
  apply post_init_after in H0. rewrite !Nat2Z.id in H0. subst p0. rewrite updates_after by (auto; lia). simpl app.
  unfold eg_select_action, after; cbn [cf_action_counts cf_reward_counts cf_len_list]. fold h'.
  assert (E : map (fun z => Fin (IZR z)) (tabZ K (times K h')) = tab K (fun a => Fin (INR (times K h' a)))).
  { unfold tabZ. rewrite map_tab. apply tab_ext. intros i Hi. rewrite <- INR_IZR_INZ. reflexivity. }
  destruct (zminl (tabZ K (times K h'))) as [m|e] eqn:Em.
  2:{ destruct K; [lia|]. unfold tabZ in Em. rewrite tab_S_first in Em. discriminate. }
  pose proof (zminl_pos _ _ Em) as Hm.
  assert (HM : (0 < m)%Z <-> (forall a, (a < K)%nat -> (0 < times K h' a)%nat)).
  { rewrite Hm. split; intros HH.
    - intros a Ha. assert (0 < Z.of_nat (times K h' a))%Z; [|lia]. apply HH. unfold tabZ. apply In_tab. exists a. auto.
    - intros z Hz. unfold tabZ in Hz. apply In_tab in Hz as (a & Ha & <-). specialize (HH a Ha). lia. }
  simpl nlt. split.
  - intros [Hu Ha]. assert (Eu : Rltb epsilon u = true) by (apply Rltb_true; auto). rewrite Eu. cbn [bind].
    assert (Em2 : (0 <? m)%Z = true) by (apply Z.ltb_lt; apply HM; auto). rewrite Em2. rewrite E.
    unfold tabF at 1. rewrite bcast2_tab. cbn [bind].
    assert (E2 : tab K (fun i => ndiv (Fin (total K h' i)) (Fin (INR (times K h' i)))) = tabF K (fun a => total K h' a / INR (times K h' a))).
    { unfold tabF. apply tab_ext. intros i Hi. rewrite ndiv_Fin. reflexivity. apply INR_ne. specialize (Ha i Hi). lia. }
    rewrite E2. eexists. split; [reflexivity|]. apply top_k_best; auto. lia.
  - intros Hn. destruct (Rltb epsilon u) eqn:Eu; [|reflexivity]. cbn [bind].
    destruct (Z.ltb_spec 0 m) as [Hlt|Hge]; [|reflexivity]. exfalso. apply Hn. apply Rltb_true in Eu. split; auto. apply HM; auto.
Qed.

Example C68_epsilon_greedy_order_ex : exists p0 l,
  cf_post_init 2 2 1 = Ok p0 /\
  eg_select_action isort (Fin (1/4)) (updates p0 [(0%Z, 0); (1%Z, 1); ((-1)%Z, 0)]) (1/2) [0;1]%nat = Ok l /\
  nth 0 l 7%nat = 1%nat.
Proof.
  exists (after 2 2 1 []). assert (H0 : cf_post_init 2 2 1 = Ok (after 2 2 1 [])) by (apply (post_init_ok 2 2 1); lia).
  destruct (C68_epsilon_greedy_order isort 2 2 1 _ [(0%Z, 0); (1%Z, 1); ((-1)%Z, 0)] (1/4) (1/2) [0;1]%nat isort_ok H0) as [HA _].
  { intros e [<-|[<-|[<-|[]]]]; unfold valid_action; simpl; lia. }
  destruct HA as (l & E & (R1 & R2 & R3) & S1 & _).
  { split. lra. intros [|[|a]] Ha; [| |exfalso; lia]; vm_compute; lia. }
  exists l. split; [auto|split; [exact E|]]. destruct l as [|a [|b [|c l]]]; try discriminate. simpl.
  specialize (S1 0%nat 1%nat ltac:(lia)). simpl nth in S1.
  assert (Ha : (a < 2)%nat) by (apply R3; simpl; auto). assert (Hb : (b < 2)%nat) by (apply R3; simpl; auto).
  inversion R1 as [|? ? Hn _]. subst. simpl in Hn.
  destruct a as [|[|a]]; [|reflexivity|lia]. destruct b as [|[|b]]; [intuition|..|lia]. cbn in S1. change (Pos.to_nat 1) with 1%nat in S1. cbn in S1. lra.
Qed.

(** BernoulliTS: with positive priors and rewards in [0,1] selection never raises and returns the best
    actions according to the sampled values. *)
Theorem C68_bernoulli_ts_order argsort K L B p alpha beta beta_draw sample :
  (forall xs, is_argsort xs (argsort xs)) ->
  reachable unit_reward (Z.of_nat K) (Z.of_nat L) B p ->
  (forall a, (a < K)%nat -> 0 < alpha a /\ 0 < beta a) ->
  (forall x y, beta_draw x y = tabF K sample) ->
  exists l, bts_select_action argsort (tabF K alpha) (tabF K beta) p beta_draw = Ok l /\
            best_first K L sample l.
Proof.
  intros Hs Hr Hpos Hd. pose proof (reachable_counted _ _ _ _ Hr) as [(n & s & E1 & E2 & Hb) _]. rewrite Nat2Z.id in *.
  apply reachable_shaped in Hr as (H1 & H2 & H3 & A1 & A2 & _). rewrite !Nat2Z.id in *.
  unfold bts_select_action, bts_params. rewrite E1, E2.
  assert (E : map (fun z => Fin (IZR z)) (tabZ K n) = tab K (fun a => Fin (INR (n a)))).
  { unfold tabZ. rewrite map_tab. apply tab_ext. intros i Hi. rewrite <- INR_IZR_INZ. reflexivity. }
  rewrite E. unfold tabF. rewrite !bcast2_tab. cbn [bind]. rewrite !bcast2_tab. cbn [bind fst snd].
  unfold beta_call. rewrite !forallb_tab_ok. 2, 3: intros i Hi; simpl; apply Rltb_true; specialize (Hpos i Hi); specialize (Hb i Hi); lra.
  cbn [negb raise_if bind]. rewrite Hd. eexists. split; [reflexivity|]. rewrite A2. apply top_k_best; auto. lia.
Qed.

Example C68_bernoulli_ts_ex : exists l,
  bts_select_action isort (tabF 2 (fun _ => 1)) (tabF 2 (fun _ => 1))
    (fst (cf_update_params (after 2 1 1 []) 1 (Fin 1))) (fun _ _ => tabF 2 (fun a => 1 / INR (2 + a))) = Ok l /\
  best_first 2 1 (fun a => 1 / INR (2 + a)) l.
Proof.
  apply (C68_bernoulli_ts_order isort 2 1 1); auto using isort_ok.
  - apply r_update. apply r_new. apply (post_init_ok 2 1 1); lia. exists 1. split; [auto|lra].
  - intros; lra.
Qed.

(** ** C69: the counters are the committed history *)

Theorem C69_counters_equal_committed_history K L B p0 h :
  cf_post_init (Z.of_nat K) (Z.of_nat L) (Z.of_nat B) = Ok p0 ->
  (forall e, In e h -> valid_action K (fst e)) ->
  let p := updates p0 h in
  cf_n_trial p = length h /\
  cf_action_counts p = tabZ K (times K (committed B h)) /\
  cf_reward_counts p = tabF K (total K (committed B h)) /\
  (forall a r, valid_action K a -> snd (cf_update_params p a (Fin r)) = Ok tt).
Proof.
  intros H0 Hv p. pose proof (post_init_inv _ _ _ _ H0) as (H1 & H2 & H3 & _).
  apply post_init_after in H0. rewrite !Nat2Z.id in H0. subst p p0. rewrite updates_after by (auto; lia). simpl app.
  repeat split; auto. intros a r Ha. rewrite update_after by (auto; lia). reflexivity.
Qed.

Example C69_counters_ex : exists p0, cf_post_init 2 1 2 = Ok p0 /\
  let p := updates p0 [(0%Z, 1); ((-1)%Z, 2); (0%Z, 5)] in
  cf_action_counts p = [1; 1]%Z /\ cf_reward_counts p = [Fin (1 + (0 + 0)); Fin (0 + (2 + 0))].
Proof.
  exists (after 2 1 2 []). assert (H0 : cf_post_init 2 1 2 = Ok (after 2 1 2 [])) by (apply (post_init_ok 2 1 2); lia).
  split; [exact H0|]. destruct (C69_counters_equal_committed_history 2 1 2 _ [(0%Z, 1); ((-1)%Z, 2); (0%Z, 5)] H0) as (_ & E1 & E2 & _).
  { intros e [<-|[<-|[<-|[]]]]; unfold valid_action; simpl; lia. }
  split; [rewrite E1; reflexivity|rewrite E2; reflexivity].
Qed.

(** Between batch boundaries an update changes nothing that selection reads. *)
Theorem C69_selection_unchanged_within_batch argsort K L B p0 h a r :
  cf_post_init (Z.of_nat K) (Z.of_nat L) (Z.of_nat B) = Ok p0 ->
  (forall e, In e h -> valid_action K (fst e)) ->
  (S (length h) mod B <> 0)%nat ->
  let p := updates p0 h in
  let p' := fst (cf_update_params p a r) in
  (forall epsilon u choice,
     eg_select_action argsort epsilon p' u choice = eg_select_action argsort epsilon p u choice) /\
  (forall alpha beta draw,
     bts_select_action argsort alpha beta p' draw = bts_select_action argsort alpha beta p draw) /\
  (forall alpha beta n_rounds n_sim draws,
     bts_compute_batch_action_dist argsort alpha beta p' n_rounds n_sim draws =
     bts_compute_batch_action_dist argsort alpha beta p n_rounds n_sim draws).
Proof.
  intros H0 Hv Hb p p'. destruct (C69_counters_equal_committed_history K L B p0 h H0 Hv) as (N & _).
  assert (HB : cf_batch_size p = B /\ cf_n_actions p = K).
  { subst p. pose proof (post_init_inv _ _ _ _ H0) as (H1 & H2 & H3 & _).
    apply post_init_after in H0. rewrite !Nat2Z.id in H0. subst p0. rewrite updates_after by (auto; lia). simpl. auto. }
  destruct HB as [HB HK]. fold p in N.
  assert (G : cf_action_counts p' = cf_action_counts p /\ cf_reward_counts p' = cf_reward_counts p /\ cf_len_list p' = cf_len_list p /\ cf_n_actions p' = cf_n_actions p).
  { subst p'. unfold cf_update_params. destruct (np_index _ a); [|cbn; auto]. cbn. rewrite N, HB.
    destruct (Nat.eqb_spec (S (length h) mod B) 0); [contradiction|]. auto. }
  destruct G as (G1 & G2 & G3 & G4).
  assert (G5 : forall alpha beta draw, bts_select_action argsort alpha beta p' draw = bts_select_action argsort alpha beta p draw).
  { intros. unfold bts_select_action, bts_params. rewrite G1, G2, G3. reflexivity. }
  split; [|split; [exact G5|]].
  - intros. unfold eg_select_action. rewrite G1, G2, G3. reflexivity.
  - intros. unfold bts_compute_batch_action_dist. rewrite G3, G4.
    set (z := Ok (repeat (repeat (Fin 0) (cf_len_list p)) (cf_n_actions p))).
    assert (F : forall l z, fold_left (fun acc s => m <- acc ;; sel <- bts_select_action argsort alpha beta p' (draws s) ;; Ok (bump_positions (cf_len_list p) sel m)) l z
       = fold_left (fun acc s => m <- acc ;; sel <- bts_select_action argsort alpha beta p (draws s) ;; Ok (bump_positions (cf_len_list p) sel m)) l z).
    { induction l; intros; simpl; auto. rewrite G5. apply IHl. }
    rewrite F. reflexivity.
Qed.

Example C69_selection_unchanged_ex : (S (length [(0%Z, 1)]) mod 3 <> 0)%nat /\
  cf_post_init 2 1 3 = Ok (after 2 1 3 []).
Proof. split. discriminate. apply (post_init_ok 2 1 3); lia. Qed.

(** [initialize()] gives back the object the constructor made, whatever happened in between. *)
Theorem C69_initialize_restores_fresh_object K L B p p0 :
  reachable any_reward K L B p -> cf_post_init K L B = Ok p0 -> cf_initialize p = p0.
Proof.
  intros Hr H0. apply post_init_inv in H0 as (_ & _ & _ & ->).
  apply reachable_shaped in Hr as (H1 & H2 & H3 & A1 & A2 & A3 & _). unfold cf_initialize. rewrite A1, A2, A3. reflexivity.
Qed.

Example C69_initialize_ex : cf_initialize (fst (cf_update_params (after 2 1 1 []) 1 (Fin 1))) = after 2 1 1 [].
Proof.
  apply (C69_initialize_restores_fresh_object 2 1 1); [|apply (post_init_ok 2 1 1); lia].
  apply r_update; [|exact I]. apply r_new. apply (post_init_ok 2 1 1); lia.
Qed.

(** A rejected update (action index out of range) raises IndexError, counts as a trial and changes nothing
    else. *)
Theorem C69_rejected_update p a r :
  ~ valid_action (cf_n_actions p) a ->
  snd (cf_update_params p a r) = Err IndexError /\
  let p' := fst (cf_update_params p a r) in
  cf_n_trial p' = S (cf_n_trial p) /\
  cf_action_counts p' = cf_action_counts p /\ cf_reward_counts p' = cf_reward_counts p /\
  cf_action_counts_temp p' = cf_action_counts_temp p /\ cf_reward_counts_temp p' = cf_reward_counts_temp p.
Proof. intros H. unfold cf_update_params. rewrite np_index_invalid by auto. cbn. auto 10. Qed.

Example C69_rejected_update_ex : ~ valid_action (cf_n_actions (after 2 1 1 [])) 2.
Proof. unfold valid_action. simpl. lia. Qed.

(** Because of that, two accepted updates with batch size 2 need not be committed: a rejected one in between
    moves the boundary. *)
Theorem C69_rejected_update_skips_commit :
  exists p0, cf_post_init 2 1 2 = Ok p0 /\
  let p1 := fst (cf_update_params p0 0 (Fin 1)) in
  let p2 := fst (cf_update_params p1 5 (Fin 1)) in
  let p3 := fst (cf_update_params p2 1 (Fin 1)) in
  cf_n_trial p3 = 3%nat /\ cf_action_counts_temp p3 = [1; 1]%Z /\ cf_action_counts p3 = [0; 0]%Z.
Proof.
  exists (after 2 1 2 []). split. apply (post_init_ok 2 1 2); lia. cbn. auto.
Qed.

(** ** C70: Thompson sampling parameters *)

Theorem C70_beta_parameters_positive K L B p alpha beta :
  reachable unit_reward (Z.of_nat K) L B p ->
  (forall a, (a < K)%nat -> 0 < alpha a /\ 0 < beta a) ->
  exists a b, bts_params p (tabF K alpha) (tabF K beta) = Ok (tabF K a, tabF K b) /\
    forall i, (i < K)%nat -> alpha i <= a i /\ beta i <= b i /\ 0 < a i /\ 0 < b i.
Proof.
  intros Hr Hpos. apply reachable_counted in Hr as [(n & s & E1 & E2 & Hb) _]. rewrite Nat2Z.id in *.
  unfold bts_params. rewrite E1, E2.
  assert (E : map (fun z => Fin (IZR z)) (tabZ K n) = tab K (fun a => Fin (INR (n a)))).
  { unfold tabZ. rewrite map_tab. apply tab_ext. intros i Hi. rewrite <- INR_IZR_INZ. reflexivity. }
  rewrite E. unfold tabF. rewrite !bcast2_tab. cbn [bind]. rewrite !bcast2_tab. cbn [bind].
  exists (fun i => s i + alpha i), (fun i => INR (n i) - s i + beta i). split; [reflexivity|].
  intros i Hi. specialize (Hpos i Hi). specialize (Hb i Hi). lra.
Qed.

Example C70_beta_parameters_ex : reachable unit_reward (Z.of_nat 2) 1 1 (fst (cf_update_params (after 2 1 1 []) 1 (Fin 1))).
Proof. apply r_update. apply r_new. apply (post_init_ok 2 1 1); lia. exists 1. split; [auto|lra]. Qed.

(** Exact value of the parameters on a history: alpha plus the committed reward sum, beta plus the committed
    count minus that sum. *)
Theorem C70_beta_parameters_value K L B p0 h alpha beta :
  cf_post_init (Z.of_nat K) (Z.of_nat L) (Z.of_nat B) = Ok p0 ->
  (forall e, In e h -> valid_action K (fst e)) ->
  let h' := committed B h in
  bts_params (updates p0 h) (tabF K alpha) (tabF K beta) =
  Ok (tabF K (fun a => total K h' a + alpha a),
      tabF K (fun a => INR (times K h' a) - total K h' a + beta a)).
Proof.
  intros H0 Hv h'. pose proof (post_init_inv _ _ _ _ H0) as (H1 & H2 & H3 & _).
  apply post_init_after in H0. rewrite !Nat2Z.id in H0. subst p0. rewrite updates_after by (auto; lia).
  apply bts_params_after.
Qed.

Example C70_beta_parameters_value_ex : exists p0, cf_post_init 2 1 1 = Ok p0 /\
  bts_params (updates p0 [(1%Z, 1)]) (tabF 2 (fun _ => 1)) (tabF 2 (fun _ => 1)) =
  Ok ([Fin (0 + 0 + 1); Fin (1 + 0 + 1)], [Fin (INR 0 - (0 + 0) + 1); Fin (INR 1 - (1 + 0) + 1)]).
Proof.
  exists (after 2 1 1 []). assert (H0 : cf_post_init 2 1 1 = Ok (after 2 1 1 [])) by (apply (post_init_ok 2 1 1); lia).
  split; [exact H0|]. rewrite (C70_beta_parameters_value 2 1 1 _ [(1%Z, 1)] (fun _ => 1) (fun _ => 1) H0). reflexivity.
  intros e [<-|[]]; unfold valid_action; simpl; lia.
Qed.

(** Rewards above one are accepted by [update_params] but make selection raise as soon as the committed
    rewards of one action exceed its count by beta. *)
Theorem C70_large_rewards_make_selection_raise argsort K L B p0 h alpha beta draw a :
  cf_post_init (Z.of_nat K) (Z.of_nat L) (Z.of_nat B) = Ok p0 ->
  (forall e, In e h -> valid_action K (fst e)) ->
  (a < K)%nat ->
  INR (times K (committed B h) a) + beta a <= total K (committed B h) a ->
  bts_select_action argsort (tabF K alpha) (tabF K beta) (updates p0 h) draw = Err ValueError.
Proof.
  intros H0 Hv Ha Hbad. unfold bts_select_action. rewrite (C70_beta_parameters_value K L B p0 h alpha beta H0 Hv).
  cbn [bind fst snd]. unfold beta_call. destruct (negb _); [reflexivity|]. cbn [raise_if bind].
  match goal with |- context [forallb ?g (tabF K ?f)] => assert (E : forallb g (tabF K f) = false) end.
  { match goal with |- forallb ?g ?l = false => destruct (forallb g l) eqn:E; [|reflexivity] end.
    rewrite forallb_forall in E. specialize (E (Fin (INR (times K (committed B h) a) - total K (committed B h) a + beta a))).
    assert (C : nlt (Fin 0) (Fin (INR (times K (committed B h) a) - total K (committed B h) a + beta a)) = true).
    { apply E. unfold tabF. apply In_tab. exists a. auto. }
    simpl in C. apply Rltb_true in C. lra. }
  rewrite E. reflexivity.
Qed.

Example C70_large_rewards_ex : exists p0, cf_post_init 2 1 1 = Ok p0 /\
  bts_select_action isort (tabF 2 (fun _ => 1)) (tabF 2 (fun _ => 1)) (updates p0 [(0%Z, 2)]) (fun a _ => a) = Err ValueError.
Proof.
  exists (after 2 1 1 []). assert (H0 : cf_post_init 2 1 1 = Ok (after 2 1 1 [])) by (apply (post_init_ok 2 1 1); lia).
  split; [exact H0|]. apply (C70_large_rewards_make_selection_raise isort 2 1 1 _ [(0%Z, 2)] _ _ _ 0%nat H0).
  - intros e [<-|[]]; unfold valid_action; simpl; lia.
  - lia.
  - cbn. lra.
Qed.

(** ** C91: action distributions computed by simulation *)

(** Random: every entry is 1/n_actions, so each (round, position) slice sums to one. *)
Theorem C91_random_action_dist K L B p n_rounds :
  reachable any_reward (Z.of_nat K) (Z.of_nat L) B p ->
  random_compute_batch_action_dist p n_rounds = tab3F n_rounds K L (fun _ _ _ => 1 / INR K) /\
  sumn K (fun _ => 1 / INR K) = 1.
Proof.
  intros Hr. apply reachable_shaped in Hr as (H1 & H2 & H3 & A1 & A2 & _). rewrite !Nat2Z.id in *.
  assert (HK : INR K <> 0) by (apply INR_ne; lia). split.
  - unfold random_compute_batch_action_dist. rewrite A1, A2. unfold nnat. rewrite ndiv_Fin by auto. simpl nmul.
    rewrite Rmult_1_l. unfold tab3F, tab2F, tabF.
    assert (G : forall A (x : A) n, repeat x n = tab n (fun _ => x)).
    { intros A x n. unfold tab. induction n; simpl; auto. f_equal. rewrite IHn. rewrite <- seq_shift, map_map. reflexivity. }
    rewrite !G. reflexivity.
  - rewrite sumn_const. field. auto.
Qed.

Example C91_random_ex : reachable any_reward (Z.of_nat 2) (Z.of_nat 1) 1 (after 2 1 1 []).
Proof. apply r_new. apply (post_init_ok 2 1 1); lia. Qed.

(** BernoulliTS: entry (i, a, q) is the fraction of simulations that ranked action [a] at position [q];
    entries are non-negative and every (round, position) slice sums to one. *)
Theorem C91_bernoulli_ts_action_dist argsort K L B p alpha beta n_rounds n_sim draws sample :
  (forall xs, is_argsort xs (argsort xs)) ->
  reachable unit_reward (Z.of_nat K) (Z.of_nat L) B p ->
  (forall a, (a < K)%nat -> 0 < alpha a /\ 0 < beta a) ->
  (forall s x y, draws s x y = tabF K (sample s)) ->
  (0 < n_sim)%nat ->
  exists sel freq,
    (forall s, best_first K L (sample s) (sel s)) /\
    bts_compute_batch_action_dist argsort (tabF K alpha) (tabF K beta) p n_rounds (Z.of_nat n_sim) draws =
      Ok (tab3F n_rounds K L (fun _ a q => freq a q)) /\
    (forall a q, freq a q = sumn n_sim (fun s => if Nat.eqb (nth q (sel s) 0%nat) a then 1 else 0) / INR n_sim) /\
    (forall a q, 0 <= freq a q) /\
    (forall q, (q < L)%nat -> sumn K (fun a => freq a q) = 1).
Proof.
  intros Hs Hr Hpos Hd Hn.
  set (sel := fun s => top_k argsort L (tabF K (sample s))).
  pose proof (reachable_shaped _ _ _ _ _ Hr) as (H1 & H2 & H3 & A1 & A2 & _). rewrite !Nat2Z.id in *.
  assert (HS : forall s, bts_select_action argsort (tabF K alpha) (tabF K beta) p (draws s) = Ok (sel s) /\ best_first K L (sample s) (sel s)).
  { intros s. assert (G : best_first K L (sample s) (sel s)) by (apply top_k_best; auto; lia). split; [|exact G].
    unfold bts_select_action. destruct (C70_beta_parameters_positive K (Z.of_nat L) B p alpha beta Hr Hpos) as (a & b & E & Hab).
    rewrite E. cbn [bind fst snd]. unfold beta_call. unfold tabF at 1 2. rewrite !forallb_tab_ok.
    2, 3: intros i Hi; simpl; apply Rltb_true; apply (Hab i Hi).
    cbn [negb raise_if bind]. rewrite Hd, A2. reflexivity. }
  exists sel, (fun a q => sumn n_sim (fun s => if Nat.eqb (nth q (sel s) 0%nat) a then 1 else 0) / INR n_sim).
  assert (HI : 0 < INR n_sim) by (apply INR_pos; lia).
  split; [intros s; apply HS|]. split; [|split; [reflexivity|split]].
  - unfold bts_compute_batch_action_dist. rewrite Nat2Z.id, A1, A2.
    rewrite (sim_loop argsort (tabF K alpha) (tabF K beta) p K L draws sel n_sim).
    2:{ intros s _. split; [apply HS|]. destruct (HS s) as [_ [HH _]]. exact HH. }
    cbn [bind]. rewrite <- INR_IZR_INZ. unfold tab2F, tabF. rewrite map_tab.
    assert (G : forall A (x : A) n, repeat x n = tab n (fun _ => x)).
    { intros A x n. unfold tab. induction n; simpl; auto. f_equal. rewrite IHn. rewrite <- seq_shift, map_map. reflexivity. }
    rewrite G. unfold tab3F, tab2F, tabF. f_equal. apply tab_ext. intros i Hi. apply tab_ext. intros a Ha. rewrite map_tab.
    apply tab_ext. intros q Hq. rewrite ndiv_Fin by lra. reflexivity.
  - intros a q. apply Rmult_le_pos. apply sumn_nonneg. intros s Hs'. destruct (Nat.eqb _ _); lra. apply Rlt_le, Rinv_0_lt_compat; auto.
  - intros q Hq. rewrite sumn_div, sumn_swap.
    rewrite (sumn_ext n_sim _ (fun _ => 1)). rewrite sumn_const. field. lra.
    intros s Hs'. destruct (HS s) as [_ [(R1 & R2 & R3) _]]. apply sumn_indicator. apply R3. apply nth_In. lia.
Qed.

Example C91_bernoulli_ts_ex : reachable unit_reward (Z.of_nat 3) (Z.of_nat 2) 1 (after 3 2 1 []).
Proof. apply r_new. apply (post_init_ok 3 2 1); lia. Qed.

(** With [n_sim = 0] the same call returns NaN everywhere. *)
Theorem C91_bernoulli_ts_zero_simulations argsort K L B p alpha beta n_rounds draws :
  reachable unit_reward (Z.of_nat K) (Z.of_nat L) B p ->
  bts_compute_batch_action_dist argsort alpha beta p n_rounds 0 draws = Ok (tab3 n_rounds K L (fun _ _ _ => NaN)).
Proof.
  intros Hr. pose proof (reachable_shaped _ _ _ _ _ Hr) as (H1 & H2 & H3 & A1 & A2 & _). rewrite !Nat2Z.id in *.
  unfold bts_compute_batch_action_dist. rewrite A1, A2. simpl. f_equal.
  assert (G : forall A (x : A) n, repeat x n = tab n (fun _ => x)).
  { intros A x n. unfold tab. induction n; simpl; auto. f_equal. rewrite IHn. rewrite <- seq_shift, map_map. reflexivity. }
  rewrite !G. unfold tab3. apply tab_ext. intros i Hi. rewrite map_tab. apply tab_ext. intros a Ha. rewrite map_tab.
  apply tab_ext. intros q Hq. apply ndiv_0_0.
Qed.

Print Assumptions C68_epsilon_greedy_valid_ranking.
Print Assumptions C68_epsilon_greedy_order.
Print Assumptions C68_bernoulli_ts_order.
Print Assumptions C69_counters_equal_committed_history.
Print Assumptions C69_selection_unchanged_within_batch.
Print Assumptions C69_initialize_restores_fresh_object.
Print Assumptions C69_rejected_update.
Print Assumptions C69_rejected_update_skips_commit.
Print Assumptions C70_beta_parameters_positive.
Print Assumptions C70_beta_parameters_value.
Print Assumptions C70_large_rewards_make_selection_raise.
Print Assumptions C91_random_action_dist.
Print Assumptions C91_bernoulli_ts_action_dist.
Print Assumptions C91_bernoulli_ts_zero_simulations.
