(** * P_Sim: theorems about the policy simulator (C77, C78, C82, C94-C96). *)

From Coq Require Import Reals List ZArith Lia Lra Bool Permutation.
From Verif Require Import Num NpList M_Utils M_Feedback M_Sim M_Linear S_Base S_Slate S_Sim L_Num L_Base L_Slate L_Sim.
Import ListNotations.
Open Scope R_scope.

(** Data for the examples: a policy that always picks action 0, and three rounds with delays 2, 0, 5. *)
Definition ex_pol : policy unit := mkPolicy Contextual (fun s _ => (s, Ok [0%Z])) (fun s _ _ _ => (s, Ok tt)).
Definition ex_rds : list bround :=
  [mkBround (Vec [Fin 7]) [Fin 1; Fin 0] (Some [2; 0]); mkBround (Vec [Fin 8]) [Fin 0; Fin 0] (Some [0; 0]);
   mkBround (Vec [Fin 9]) [Fin 1; Fin 1] (Some [5; 0])].
Lemma ex_total : total_policy 2 ex_pol.
Proof. split; [discriminate|split]. intros p c. exists 0%Z, []. split; [reflexivity|simpl; lia]. reflexivity. Qed.
Lemma ex_shaped : forall rd, In rd ex_rds -> shaped_round 2 rd.
Proof. intros rd [<-|[<-|[<-|[]]]]; split; reflexivity. Qed.

(** ** C77: delayed feedback *)

(** The recorded calls are exactly, round by round, the feedback of the rounds due in that round; each
    carries the context, action and reward of the round it belongs to. *)
Theorem C77_delivered_when_due {P} (pol : policy P) p rs s :
  sim_steps (recording pol) (sim_new (p, [])) rs = (s, Ok tt) ->
  snd (sm_policy s) =
    map (feedback_of (pol_type pol) rs (sm_actions s)) (delivered_before (chosen_delay rs (sm_actions s)) (length rs)).
Proof. intros H. apply (sim_steps_inv pol rs [] _ _ (sim_new_inv _ p)) in H. apply (iv_log _ _ _ H). Qed.

(** With non-negative integer delays a round [t] with delay [d] is delivered in round [t + d] and no other. *)
Theorem C77_due_round (d : nat -> nat) s :
  delivered_at (fun t => Some (INR (d t))) s = filter (fun t => Nat.eqb (t + d t) s) (seq 0 (S s)).
Proof.
  unfold delivered_at. apply filter_ext. intros t. rewrite <- plus_INR.
  destruct (Reqb_spec (INR (d t + t)) (INR s)) as [E|E]; destruct (Nat.eqb_spec (t + d t) s) as [F|F]; auto; exfalso.
  apply INR_eq in E. lia. apply E. f_equal. lia.
Qed.

(** Never early, for any delays: what reaches the policy in round [s] belongs to a round not after [s], and
    its delay is exactly the difference. *)
Theorem C77_never_early D s t : In t (delivered_at D s) ->
  (t <= s)%nat /\ match D t with Some d => d = INR s - INR t | None => s = t end.
Proof.
  intros H. split. apply delivered_le in H. exact H. apply in_delivered_at in H. destruct (D s) eqn:E.
  - destruct H as [_ (d & -> & H)]. lra.
  - subst. rewrite E. reflexivity.
Qed.

(** After [clear_delayed_queue] every round has been delivered exactly once and nothing is pending, whatever
    the delays (late, negative, fractional) and whichever rounds have none. *)
Theorem C77_exactly_once_after_clear {P} (pol : policy P) p rs s s' :
  sim_steps (recording pol) (sim_new (p, [])) rs = (s, Ok tt) ->
  clear_delayed_queue (recording pol) s = (s', Ok tt) ->
  Permutation (snd (sm_policy s')) (map (feedback_of (pol_type pol) rs (sm_actions s)) (seq 0 (length rs))) /\
  sm_lookup s' = [] /\ sm_actions s' = sm_actions s /\
  exists l, snd (sm_policy s') = snd (sm_policy s) ++ map (feedback_of (pol_type pol) rs (sm_actions s)) l /\
            Permutation l (undelivered (chosen_delay rs (sm_actions s)) (length rs)).
Proof.
  intros H C. destruct rs as [|rd rs].
  - simpl in H. injection H as <-. unfold clear_delayed_queue in C. simpl in C. injection C as <-. simpl.
    split; [constructor|split; [reflexivity|split; [reflexivity|]]]. exists []. split; [reflexivity|constructor].
  - pose proof (sim_steps_type _ _ _ _ _ H) as Ht. pose proof (sim_steps_inv pol (rd :: rs) [] _ _ (sim_new_inv _ p) H) as I.
    rewrite app_nil_l in I. set (all := rd :: rs) in *. destruct I as [i1 i2 i3 i4 i5 i6 i7 i8 i9 i10 i11].
    assert (HP := lk_values _ _ _ i8 i9 i10).
    assert (HB : forall t, In t (concat (map snd (sm_lookup s))) -> (t < length all)%nat).
    { intros t Hti. apply (Permutation_in _ HP) in Hti. apply in_undelivered in Hti. tauto. }
    unfold clear_delayed_queue in C. destruct (clear_loop_ok pol (sm_lookup s) Ht s s' eq_refl i8) as [q ->]; [|exact C|].
    { intros t Hti. apply HB in Hti. rewrite i1, i2, i5, map_length. auto. }
    cbn [set_lookup set_policy sm_policy sm_lookup sm_actions snd].
    assert (HL : map (list_call (pol_type pol) (sm_contexts s) (sm_actions s) (sm_rewards s)) (concat (map snd (sm_lookup s))) =
                 map (feedback_of (pol_type pol) all (sm_actions s)) (concat (map snd (sm_lookup s)))).
    { apply map_ext_in. intros t Hti. apply feedback_list_call; auto. }
    rewrite HL. split; [|split; [reflexivity|split; [reflexivity|]]].
    + rewrite i11, <- map_app. apply Permutation_map. eapply Permutation_trans. apply Permutation_app_head. exact HP.
      apply schedule_partition.
    + eexists. split; [reflexivity|exact HP].
Qed.

(** A policy that never raises and picks valid actions meets the hypotheses above. *)
Theorem C77_no_spurious_failure {P} K (pol : policy P) p rs :
  total_policy K pol -> (forall rd, In rd rs -> shaped_round K rd) ->
  exists s s', sim_steps (recording pol) (sim_new (p, [])) rs = (s, Ok tt) /\
               clear_delayed_queue (recording pol) s = (s', Ok tt).
Proof.
  intros T Hs. pose proof (total_steps K pol rs T Hs [] _ (sim_new_inv _ p)) as E.
  destruct (sim_steps (recording pol) (sim_new (p, [])) rs) as [s o] eqn:F. simpl in E. subst o. exists s.
  pose proof (sim_steps_inv pol rs [] _ _ (sim_new_inv _ p) F) as I. simpl in I. destruct I as [i1 i2 i3 i4 i5 i6 i7 i8 i9 i10 i11].
  assert (HP := lk_values _ _ _ i8 i9 i10).
  pose proof (total_clear_loop K (recording pol) (sm_lookup s) (recording_total K pol T) s) as C.
  exists (fst (clear_delayed_queue (recording pol) s)). split; [reflexivity|]. unfold clear_delayed_queue. rewrite <- C. apply surjective_pairing.
  intros t Hti. apply (Permutation_in _ HP) in Hti. apply in_undelivered in Hti. rewrite i1, i2, i5, map_length. tauto.
Qed.

(** Recording does not change the run: with the bare policy the same actions, rewards, queue and outcome
    result, and the policy state is the first component of the recorded one. *)
Theorem C77_recording_is_transparent {P} (pol : policy P) p rs :
  (exists log, sim_steps (recording pol) (sim_new (p, [])) rs =
     (with_log (fst (sim_steps pol (sim_new p) rs)) log, snd (sim_steps pol (sim_new p) rs))) /\
  (forall s log, exists log', clear_delayed_queue (recording pol) (with_log s log) =
     (with_log (fst (clear_delayed_queue pol s)) log', snd (clear_delayed_queue pol s))).
Proof.
  split. apply (rec_steps pol rs (sim_new p) []). intros s log. apply (rec_clear_loop pol (sm_lookup s) s log).
Qed.

(** The action of each round is the first entry of what the policy's [select_action] returned in that round,
    called with the round's context (as a batch of one) if the policy is contextual. *)
Theorem C78_action_is_first_choice {P} (pol : policy P) s rd s' :
  sim_step pol s rd = (s', Ok tt) ->
  exists l a, snd (pol_select pol (sm_policy s) (visible (pol_type pol) (br_context rd))) = Ok (a :: l) /\
              sm_actions s' = sm_actions s ++ [a].
Proof.
  unfold sim_step. intros H.
  destruct (sim_select_action pol (sm_policy s) (br_context rd)) as [p1 [a|e]] eqn:Es; cbn [fst snd] in H; [|discriminate].
  assert (A : sm_actions s' = sm_actions s ++ [a]).
  { destruct (np_get (br_rewards rd) a) as [r|e]; [|discriminate].
    assert (F : forall av u, sm_actions (fst (deliver pol u av)) = sm_actions u).
    { clear. induction av as [|t av IH]; intros s; simpl; auto. destruct (a <- np_get (sm_actions s) (Z.of_nat t);; _) as [[[a c] r]|e]; cbn; auto.
      destruct (snd (sim_update_policy pol (sm_policy s) c a r)); cbn [fst]; auto. rewrite IH. reflexivity. }
    destruct (br_delays rd) as [dl|].
    - destruct (np_get dl a) as [d|e]; [|discriminate]. unfold delayed_update_policy in H.
      match type of H with context[deliver pol ?u ?av] => specialize (F av u); destruct (deliver pol u av) as [s1 [[]|e]] end; cbn in H, F; [|discriminate].
      injection H as <-. exact F.
    - destruct (sim_update_policy pol p1 (br_context rd) a r) as [q [[]|e]]; cbn in H; [|discriminate]. injection H as <-. reflexivity. }
  unfold sim_select_action in Es. unfold visible. fold (expand0 (br_context rd)). destruct (pol_type pol); [| |discriminate].
  - injection Es as _ Es. destruct (snd (pol_select pol (sm_policy s) None)) as [[|b l]|e]; cbn in Es; try discriminate.
    injection Es as ->. exists l, a. auto.
  - injection Es as _ Es. destruct (snd (pol_select pol (sm_policy s) (Some (expand0 (br_context rd))))) as [[|b l]|e]; cbn in Es; try discriminate.
    injection Es as ->. exists l, a. auto.
Qed.

Lemma ex_actions rs : forall s s', sim_steps ex_pol s rs = (s', Ok tt) -> sm_actions s' = sm_actions s ++ repeat 0%Z (length rs).
Proof.
  induction rs as [|rd rs IH]; intros s s' H; simpl in H. injection H as <-. simpl. rewrite app_nil_r. reflexivity.
  destruct (sim_step ex_pol s rd) as [s1 [[]|e]] eqn:E; cbn [fst snd] in H; [|discriminate].
  apply C78_action_is_first_choice in E as (l & a & E & A). cbn in E. injection E as <- _. rewrite (IH _ _ H), A, <- app_assoc. reflexivity.
Qed.

Lemma ex_run rs : (forall rd, In rd rs -> shaped_round 2 rd) ->
  exists s s' s0, sim_steps (recording ex_pol) (sim_new (tt, [])) rs = (s, Ok tt) /\
    clear_delayed_queue (recording ex_pol) s = (s', Ok tt) /\ sm_actions s = repeat 0%Z (length rs) /\
    sim_steps ex_pol (sim_new tt) rs = (s0, Ok tt) /\ sm_actions s0 = repeat 0%Z (length rs).
Proof.
  intros Hs. destruct (C77_no_spurious_failure 2 ex_pol tt rs ex_total Hs) as (s & s' & H & C).
  destruct (C77_recording_is_transparent ex_pol tt rs) as [[log E] _]. rewrite H in E.
  assert (E1 := f_equal fst E). assert (E2 := f_equal snd E). cbn [fst snd] in E1, E2.
  exists s, s', (fst (sim_steps ex_pol (sim_new tt) rs)).
  assert (F : sim_steps ex_pol (sim_new tt) rs = (fst (sim_steps ex_pol (sim_new tt) rs), Ok tt)) by (rewrite E2; apply surjective_pairing).
  assert (A := ex_actions rs _ _ F). split; [exact H|split; [exact C|split; [|split; [exact F|exact A]]]].
  rewrite E1. exact A.
Qed.

Example C77_ex : exists s s', sim_steps (recording ex_pol) (sim_new (tt, [])) ex_rds = (s, Ok tt) /\
  clear_delayed_queue (recording ex_pol) s = (s', Ok tt) /\
  sm_actions s = [0; 0; 0]%Z /\
  snd (sm_policy s) = [(Some (Mat [[Fin 8]]), 0%Z, Fin 0); (Some (Mat [[Fin 7]]), 0%Z, Fin 1)].
Proof.
  destruct (ex_run ex_rds ex_shaped) as (s & s' & s0 & H & C & EA & _). exists s, s'. split; [exact H|split; [exact C|]].
  change (repeat 0%Z (length ex_rds)) with [0;0;0]%Z in EA.
  split; [exact EA|]. rewrite (C77_delivered_when_due ex_pol tt ex_rds s H), EA.
  unfold delivered_before. rewrite (map_ext_in _ (delivered_at (fun t => Some (INR (nth t [2;0;5]%nat 0%nat))))).
  - rewrite (map_ext _ _ (C77_due_round (fun t => nth t [2;0;5]%nat 0%nat))). reflexivity.
  - intros u Hu. apply in_seq in Hu. simpl in Hu. apply delivered_at_ext. intros t Ht.
    destruct t as [|[|[|t]]]; [| | |lia]; unfold chosen_delay; cbn; f_equal; lra.
Qed.

(** ** C78: bookkeeping *)
Theorem C78_bookkeeping {P} (pol : policy P) p rs s :
  sim_steps pol (sim_new p) rs = (s, Ok tt) ->
  length (sm_actions s) = length rs /\ length (sm_rewards s) = length rs /\ sm_played s = length rs /\
  sm_contexts s = map br_context rs /\ sm_truth s = map br_rewards rs /\
  (forall t, (t < length rs)%nat ->
     np_get (br_rewards (nth t rs no_round)) (nth t (sm_actions s) 0%Z) = Ok (nth t (sm_rewards s) NaN)) /\
  (forall r, sm_rewards s = tabF (length rs) r -> sm_total s = Fin (sumn (length rs) r)).
Proof.
  intros H. destruct (C77_recording_is_transparent pol p rs) as [[log E] _]. rewrite H in E. cbn [fst snd] in E.
  pose proof (sim_steps_inv pol rs [] _ _ (sim_new_inv _ p) E) as I. rewrite app_nil_l in I. destruct I as [i1 i2 i3 i4 i5 i6 i7 i8 i9 i10 i11].
  cbn [with_log sm_actions sm_rewards sm_truth sm_contexts sm_total sm_played] in *.
  split; [auto|split; [auto|split; [auto|split; [auto|split; [auto|split; [auto|]]]]]].
  intros r Er. rewrite i6, Er. clear. assert (G : forall n c, fold_left nadd (tabF n r) (Fin c) = Fin (c + sumn n r)).
  { induction n; intros c. simpl. rewrite Rplus_0_r. reflexivity. unfold tabF in *. rewrite tab_S, fold_left_app, IHn. simpl. f_equal. ring. }
  rewrite G. f_equal. ring.
Qed.

Example C78_ex : exists s, sim_steps ex_pol (sim_new tt) ex_rds = (s, Ok tt) /\ sm_rewards s = [Fin 1; Fin 0; Fin 1].
Proof.
  destruct (ex_run ex_rds ex_shaped) as (s & s' & s0 & _ & _ & _ & F & A). exists s0. split; [exact F|].
  apply C78_bookkeeping in F as (_ & L & _ & _ & _ & R & _).
  revert L R. rewrite A. generalize (sm_rewards s0). intros l L R.
  destruct l as [|x [|y [|z [|? ?]]]]; try discriminate.
  pose proof (R 0%nat ltac:(simpl; lia)) as R0. pose proof (R 1%nat ltac:(simpl; lia)) as R1. pose proof (R 2%nat ltac:(simpl; lia)) as R2.
  cbn in R0, R1, R2. congruence.
Qed.

(** Iterating a [BanditRounds] object yields its rounds in order, whatever was iterated before. *)
Theorem C78_bandit_rounds_iteration n idx (c r : nat -> list num) (d : option (nat -> list R)) :
  bs_for (mkBrounds n (tab n c) (tab n r) (option_map (tab n) d) idx) =
  Ok (tab n (fun i => mkBround (Vec (c i)) (r i) (option_map (fun f => f i) d))).
Proof.
  unfold bs_for, bs_iter. cbn [bs_n_rounds bs_context bs_rewards bs_delays].
  assert (G : forall k i, (i + k = n)%nat ->
     bs_rounds (S k) (mkBrounds n (tab n c) (tab n r) (option_map (tab n) d) i) =
     Ok (map (fun j => mkBround (Vec (c j)) (r j) (option_map (fun f => f j) d)) (seq i k))).
  { induction k; intros i Hi.
    - simpl. unfold bs_next. cbn [bs_idx bs_n_rounds]. destruct (Nat.ltb_spec i n); [lia|]. reflexivity.
    - change (bs_rounds (S (S k)) (mkBrounds n (tab n c) (tab n r) (option_map (tab n) d) i)) with
        (match bs_next (mkBrounds n (tab n c) (tab n r) (option_map (tab n) d) i) with
           | (_, None) => Ok []
           | (_, Some (Err e)) => Err e
           | (b', Some (Ok x)) => rest <- bs_rounds (S k) b' ;; Ok (x :: rest)
         end).
      unfold bs_next. cbn [bs_idx bs_n_rounds]. destruct (Nat.ltb_spec i n); [|lia]. unfold bs_get. cbn [bs_idx bs_context bs_rewards bs_delays].
      destruct d as [d|]; cbn [option_map bind]; rewrite !np_get_tab by lia; cbn [bind option_map] in *; rewrite IHk by lia; reflexivity. }
  rewrite (G n 0%nat) by lia. reflexivity.
Qed.

Example C78_iteration_ex : bs_for (mkBrounds 2 (tab 2 (fun i => [Fin (INR i)])) (tab 2 (fun i => [Fin 1])) (Some (tab 2 (fun i => [3]))) 7) =
  Ok [mkBround (Vec [Fin (INR 0)]) [Fin 1] (Some [3]); mkBround (Vec [Fin (INR 1)]) [Fin 1] (Some [3])].
Proof. reflexivity. Qed.

(** ** C94: the feedback validator *)
Definition in_range (bound : option Z) (l : list Z) : Prop :=
  l <> [] /\ Forall (fun x => (0 <= x)%Z /\ match bound with None => True | Some b => (x < b)%Z end) l.

Lemma check_action_range_decides l b : decides (check_action_range l b) (in_range b l).
Proof.
  unfold check_action_range, in_range. generalize (zminl_spec l). destruct (zminl l) as [m|e]; simpl.
  - intros (Hne & Hin & Hle). destruct (Z.ltb_spec m 0); simpl.
    + right. split; [reflexivity|]. intros [_ F]. rewrite Forall_forall in F. specialize (F m Hin). lia.
    + destruct b as [b|].
      * generalize (zmaxl_spec l). destruct (zmaxl l) as [M|e]; simpl; [|intros [E _]; congruence]. intros (_ & Hin' & Hge).
        apply decides_raise. rewrite negb_false_iff, Z.ltb_lt, Forall_forall. split.
        intros HM. split; auto. intros x Hx. specialize (Hle x Hx). specialize (Hge x Hx). lia. intros [_ F]. apply (F M Hin').
      * left. split; auto. split; auto. apply Forall_forall. intros x Hx. specialize (Hle x Hx). lia.
  - intros [-> ->]. right. split; auto. tauto.
Qed.
Lemma check_lengths_decides c a r n : decides (check_lengths c a r n)
  (length c = length a /\ length r = length a /\ match n with None => True | Some m => m = length a end).
Proof.
  unfold check_lengths. apply decides_raise. rewrite negb_false_iff, !andb_true_iff, !Nat.eqb_eq.
  destruct n; rewrite ?Nat.eqb_eq; intuition congruence.
Qed.

(** [check_bandit_feedback_inputs] accepts exactly: a non-empty log whose arrays have one common length,
    actions in range (of the expected-reward columns and of the action contexts when given), non-negative
    positions, and no propensity that compares [<= 0]; everything else is a ValueError. *)
Theorem C94_feedback_validator context action reward er position pscore ac :
  decides (check_bandit_feedback_inputs context action reward er position pscore ac)
    (length context = length action /\ length reward = length action /\
     in_range None action /\
     match er with None => True | Some e => length e = length action /\ in_range (Some (Z.of_nat (length (nth 0 e [])))) action end /\
     match pscore with None => True | Some p => length p = length action /\ Forall (fun x => nle x (Fin 0) = false) p end /\
     match position with None => True | Some q => length q = length action /\ Forall (fun x => (0 <= x)%Z) q end /\
     match ac with None => True | Some x => in_range (Some (Z.of_nat (length x))) action end).
Proof.
  unfold check_bandit_feedback_inputs.
  assert (Nc : forall e : arr2, ncols e = Z.of_nat (length (nth 0 e []))) by (intros [|? ?]; reflexivity).
  assert (R : forall b, in_range b action -> in_range None action).
  { intros b [H1 H2]. split; auto. eapply Forall_impl; [|exact H2]. simpl. intros x H. tauto. }
  eapply decides_iff; [|apply decides_seq; [|intros _; apply decides_seq; [|intros _; apply decides_seq; [|intros _]]]].
  5:{ instantiate (1 := match ac with None => in_range None action | Some x => in_range (Some (Z.of_nat (length x))) action end).
      destruct ac; apply check_action_range_decides. }
  4:{ instantiate (1 := match position with
         | Some q => (length context = length action /\ length reward = length action /\ length q = length action) /\ in_range None q
         | None => length context = length action /\ length reward = length action /\ True end).
      destruct position. apply decides_seq. apply (check_lengths_decides _ _ _ (Some _)). intros _. apply check_action_range_decides.
      apply (check_lengths_decides _ _ _ None). }
  3:{ instantiate (1 := match pscore with
         | Some p => (length context = length action /\ length reward = length action /\ length p = length action) /\ Forall (fun x => nle x (Fin 0) = false) p
         | None => True end).
      destruct pscore. apply decides_seq. apply (check_lengths_decides _ _ _ (Some _)). intros _. apply decides_raise. apply existsb_false_forall.
      left; auto. }
  2:{ instantiate (1 := match er with
         | Some e => (length context = length action /\ length reward = length action /\ length e = length action) /\ in_range (Some (ncols e)) action
         | None => in_range None action end).
      destruct er. apply decides_seq. apply (check_lengths_decides _ _ _ (Some _)). intros _. apply check_action_range_decides.
      apply check_action_range_decides. }
  assert (Q : forall q, length q = length action -> in_range None action -> (in_range None q <-> Forall (fun x => (0 <= x)%Z) q)).
  { intros q Hq [Hne _]. unfold in_range. split. intros [_ H]. eapply Forall_impl; [|exact H]. simpl. tauto.
    intros H. split. destruct q, action; simpl in *; congruence. eapply Forall_impl; [|exact H]. simpl. auto. }
  split.
  - intros (H1 & H2 & H3 & H4).
    assert (A : in_range None action) by (destruct ac; eauto).
    assert (C : length context = length action /\ length reward = length action) by (destruct position; tauto).
    split; [tauto|split; [tauto|split; [exact A|]]]. split; [destruct er as [er|]; [rewrite (Nc er) in *|]; tauto|]. split; [destruct pscore; tauto|].
    split; [|destruct ac; auto]. destruct position as [q|]; auto. split; [tauto|]. apply (Q q); tauto.
  - intros (H1 & H2 & A & H3 & H4 & H5 & H6). split; [destruct er as [er|]; [rewrite (Nc er) in *|]; tauto|]. split; [destruct pscore; tauto|].
    split; [|destruct ac; auto]. destruct position as [q|]; [|tauto]. split; [tauto|]. apply (Q q); tauto.
Qed.

Example C94_ex : check_bandit_feedback_inputs [[Fin 1]; [Fin 2]] [0; 1]%Z [Fin 1; Fin 0] None (Some [0; 3]%Z) (Some [Fin (1/2); NaN]) None = Ok tt.
Proof.
  apply (decides_Ok _ _ (C94_feedback_validator _ _ _ _ _ _ _)). repeat split; auto; try discriminate; repeat constructor; try lia.
  simpl. apply Rleb_false. lra.
Qed.

(** ** C95: a failed step leaves the simulator inconsistent *)

(** If [select_action] raises, the context and the ground-truth rewards of the round stay in the log but
    nothing else does, so later rounds are logged at shifted indices. *)
Theorem C95_failed_selection {P} (pol : policy P) s rd e :
  snd (sim_select_action pol (sm_policy s) (br_context rd)) = Err e ->
  let s' := fst (sim_step pol s rd) in
  snd (sim_step pol s rd) = Err e /\
  sm_contexts s' = sm_contexts s ++ [br_context rd] /\ sm_truth s' = sm_truth s ++ [br_rewards rd] /\
  sm_actions s' = sm_actions s /\ sm_rewards s' = sm_rewards s /\ sm_played s' = sm_played s /\ sm_lookup s' = sm_lookup s.
Proof. intros H. cbv zeta. unfold sim_step. rewrite H. cbn. repeat split. Qed.

(** So the next round's feedback reaches the policy with the context of the failed round. *)
Definition flaky : policy nat :=
  mkPolicy Contextual (fun n _ => (S n, if Nat.eqb n 0 then Err ValueError else Ok [0%Z])) (fun n _ _ _ => (n, Ok tt)).
Theorem C95_wrong_context_after_failure c0 c1 r0 r1 :
  let s1 := fst (sim_step (recording flaky) (sim_new (0%nat, [])) (mkBround (Vec c0) [r0] (Some [0]))) in
  let s2 := sim_step (recording flaky) s1 (mkBround (Vec c1) [r1] (Some [0])) in
  snd s2 = Ok tt /\ snd (sm_policy (fst s2)) = [(Some (Mat [c0]), 0%Z, r1)].
Proof.
  cbv zeta. unfold sim_step at 2 4. cbn -[sim_step]. unfold sim_step. cbn -[Rplus]. rewrite Rplus_0_l.
  destruct (Reqb_spec 0 0) as [_|E]; [|congruence]. cbn. destruct (Reqb_spec 0 0) as [_|E]; [|congruence]. cbn. auto.
Qed.

(** If an update raises while several rounds are due, the ones already delivered stay queued under the same
    round number. *)
Theorem C95_failed_delivery_keeps_queue {P} (pol : policy P) s av k e :
  snd (delayed_update_policy pol s av k) = Err e ->
  sm_lookup (fst (delayed_update_policy pol s av k)) = sm_lookup s.
Proof.
  unfold delayed_update_policy. assert (F : sm_lookup (fst (deliver pol s av)) = sm_lookup s).
  { revert s. induction av as [|t av IH]; intros s; simpl; auto. destruct (a <- np_get (sm_actions s) (Z.of_nat t);; _) as [[[a c] r]|x]; cbn; auto.
    destruct (snd (sim_update_policy pol (sm_policy s) c a r)); cbn [fst]; auto. rewrite IH. reflexivity. }
  destruct (snd (deliver pol s av)); cbn; [discriminate|auto].
Qed.
(** Hence retrying delivers them twice: the second update call fails, the retry sends round 0 again. *)
Definition fragile : policy nat :=
  mkPolicy ContextFree (fun n _ => (n, Ok [0%Z])) (fun n _ _ _ => (S n, if Nat.eqb n 1 then Err ValueError else Ok tt)).
Theorem C95_duplicate_delivery_after_failure c x y z :
  let s1 := fst (sim_step (recording fragile) (sim_new (0%nat, [])) (mkBround c [x] (Some [1]))) in
  let s2 := fst (sim_step (recording fragile) s1 (mkBround c [y] (Some [0]))) in
  let s3 := sim_step (recording fragile) s2 (mkBround c [z] (Some [0])) in
  snd s3 = Ok tt /\
  snd (sm_policy (fst s3)) = [(None, 0%Z, x); (None, 0%Z, y); (None, 0%Z, x); (None, 0%Z, y); (None, 0%Z, y)].
Proof.
  cbv zeta.
  assert (E1 : fst (sim_step (recording fragile) (sim_new (0%nat, [])) (mkBround c [x] (Some [1]))) =
     mkSim (0%nat, []) [(1, [0%nat])] [0%Z] [x] [[x]] [c] (nadd (Fin 0) x) 1).
  { unfold sim_step. cbn -[Rplus nadd]. rewrite Rplus_0_r. destruct (Reqb_spec 1 0) as [E|_]; [lra|]. cbn -[nadd].
    destruct (Reqb_spec 1 0) as [E|_]; [lra|]. reflexivity. }
  rewrite E1. set (t1 := nadd (Fin 0) x).
  assert (E2 : fst (sim_step (recording fragile) (mkSim (0%nat, []) [(1, [0%nat])] [0%Z] [x] [[x]] [c] t1 1) (mkBround c [y] (Some [0]))) =
     mkSim (2%nat, [(None, 0%Z, x); (None, 0%Z, y)]) [(1, [0%nat; 1%nat])] [0%Z; 0%Z] [x; y] [[x]; [y]] [c; c] (nadd t1 y) 1).
  { unfold sim_step. cbn -[Rplus nadd]. rewrite Rplus_0_l. destruct (Reqb_spec 1 1) as [_|E]; [|lra]. cbn -[nadd].
    destruct (Reqb_spec 1 1) as [_|E]; [|lra]. cbn -[nadd]. reflexivity. }
  rewrite E2. set (t2 := nadd t1 y).
  unfold sim_step. cbn -[Rplus nadd]. rewrite Rplus_0_l. destruct (Reqb_spec 1 1) as [_|E]; [|lra]. cbn -[nadd].
  destruct (Reqb_spec 1 1) as [_|E]; [|lra]. cbn -[nadd]. destruct (Reqb_spec 1 1) as [_|E]; [|lra]. cbn. auto.
Qed.

(** A round without delays skips the deliveries that are due in it: they wait for [clear_delayed_queue]. *)
Theorem C95_undelayed_round_skips_due D s t : D s = None -> D t = Some (INR s - INR t) -> (t < s)%nat ->
  ~ In t (delivered_at D s) /\ forall n, (n > s)%nat -> In t (undelivered D n).
Proof.
  intros Hs Ht Hlt. assert (A : forall u, ~ In t (delivered_at D u)).
  { intros u Hu. apply in_delivered_at in Hu. destruct (D u) eqn:E.
    - destruct Hu as [_ (d & H1 & H2)]. rewrite Ht in H1. injection H1 as <-. assert (INR s = INR u) by lra. apply INR_eq in H. congruence.
    - subst u. congruence. }
  split; auto. intros n Hn. apply in_undelivered. split; [lia|]. rewrite in_delivered_before. intros (u & _ & Hu). apply (A u Hu).
Qed.
Example C95_skip_ex : let D := fun t => if Nat.eqb t 1 then None else Some 1 in
  D 1%nat = None /\ D 0%nat = Some (INR 1 - INR 0) /\ (0 < 1)%nat.
Proof. simpl. split; [reflexivity|split; [f_equal; lra|lia]]. Qed.

(** ** C82: the simulation-based ground truth *)
Lemma np_get_In {A} (l : list A) i x : np_get l i = Ok x -> In x l.
Proof.
  unfold np_get. destruct (_ && _)%bool; [|discriminate].
  match goal with |- context[nth_error l ?n] => destruct (nth_error l n) eqn:E; [|discriminate] end.
  intros H. injection H as <-. eapply nth_error_In; eauto.
Qed.
Lemma gt_rounds_replica {P S} (pol : policy P) (sampler : S -> arr1 -> Z -> S * res num) K :
  forall rounds p st cum st' c, (forall x, In x rounds -> exists e, snd x = tabF K e) ->
  gt_rounds pol sampler rounds p st (Fin cum) = (st', Ok c) ->
  exists acts e, replica pol sampler p st (map fst rounds) acts st' /\ length acts = length rounds /\
    (forall t, (t < length rounds)%nat -> np_get (nth t (map snd rounds) []) (nth t acts 0%Z) = Ok (Fin (e t))) /\
    c = Fin (cum + sumn (length rounds) e).
Proof.
  induction rounds as [|[[pos ctx] ex] rest IH]; intros p st cum st' c HK H.
  - cbn in H. injection H as <- <-. exists [], (fun _ => 0). split; [constructor|]. split; [reflexivity|]. split; [simpl; lia|]. simpl. f_equal. lra.
  - cbn [gt_rounds] in H.
    assert (Hty : pol_type pol <> Offline) by (intros E; rewrite E in H; discriminate).
    set (cx := match pol_type pol with Contextual => Some (Mat [ctx]) | _ => None end) in *.
    assert (H' : (let sel := pol_select pol p cx in
          match l <- snd sel ;; np_get l pos with
          | Err e => (st, Err e)
          | Ok a =>
              let sm := sampler st ctx a in
              match r <- snd sm ;; e <- np_get ex a ;; Ok (r, e) with
              | Err e => (fst sm, Err e)
              | Ok (r, e) =>
                  let u := pol_update pol (fst sel) a r cx in
                  match snd u with
                  | Err x => (fst sm, Err x)
                  | Ok _ => gt_rounds pol sampler rest (fst u) (fst sm) (nadd (Fin cum) e)
                  end
              end
          end) = (st', Ok c)).
    { subst cx. destruct (pol_type pol); [exact H|exact H|congruence]. }
    clear H. cbv zeta in H'. destruct (pol_select pol p cx) as [p1 [l|x]] eqn:E1; cbn [fst snd bind] in H'; [|discriminate].
    destruct (np_get l pos) as [a|x] eqn:E2; [|discriminate].
    destruct (sampler st ctx a) as [st1 [r|x]] eqn:E3; cbn [fst snd bind] in H'; [|discriminate].
    destruct (HK (pos, ctx, ex) (or_introl eq_refl)) as [ef Hef]. cbn in Hef. subst ex.
    destruct (np_get (tabF K ef) a) as [v|x] eqn:E4; cbn [bind] in H'; [|discriminate].
    assert (Hv : exists w, v = Fin w).
    { apply np_get_In, In_tab in E4 as (i & _ & <-). eauto. }
    destruct Hv as [w ->].
    destruct (pol_update pol p1 a r cx) as [p2 [[]|x]] eqn:E5; cbn [fst snd] in H'; [|discriminate].
    cbn [nadd] in H'. apply IH in H' as (acts & e & R & L & Q & ->); [|intros x Hx; apply HK; right; exact Hx].
    exists (a :: acts), (fun t => match t with O => w | Datatypes.S t => e t end). split.
    { simpl. eapply replica_cons; eauto. }
    split; [simpl; congruence|]. split.
    { intros [|t] Ht; simpl. exact E4. apply Q. simpl in Ht. lia. }
    f_equal. simpl length. rewrite sumn_S_first. cbv beta iota. change (fun i => e i) with e. lra.
Qed.

Lemma gt_sims_replicas {P S} (pol : policy P) (sampler : S -> arr1 -> Z -> S * res num) K rounds p :
  (forall x, In x rounds -> exists e, snd x = tabF K e) ->
  forall n st cum c, gt_sims pol sampler rounds p n st (Fin cum) = Ok c ->
  exists acts e, replicas pol sampler p (map fst rounds) st acts /\ length acts = n /\
    (forall s t, (s < n)%nat -> (t < length rounds)%nat ->
       length (nth s acts []) = length rounds /\
       np_get (nth t (map snd rounds) []) (nth t (nth s acts []) 0%Z) = Ok (Fin (e s t))) /\
    c = Fin (cum + sumn n (fun s => sumn (length rounds) (e s))).
Proof.
  intros HK. induction n; intros st cum c H; cbn [gt_sims] in H.
  - injection H as <-. exists [], (fun _ _ => 0). split; [constructor|]. split; [reflexivity|]. split; [lia|]. simpl. f_equal. lra.
  - destruct (gt_rounds pol sampler rounds p st (Fin cum)) as [st1 [c1|x]] eqn:E; cbn [fst snd bind] in H; [|discriminate].
    apply (gt_rounds_replica pol sampler K) in E as (acts & e & R & L & Q & ->); auto.
    apply IHn in H as (acts' & e' & R' & L' & Q' & ->).
    exists (acts :: acts'), (fun s => match s with O => e | Datatypes.S s => e' s end). split; [econstructor; eauto|].
    split; [simpl; congruence|]. split.
    + intros [|s] t Hs Ht; simpl. split; auto. apply Q'; lia.
    + f_equal. rewrite sumn_S_first. lra.
Qed.

(** When it returns, the result is the average, over [n_sim] replicas that all start from the given policy
    state and over the rounds, of the expected reward of the action the replica takes in the round. *)
Theorem C82_average_over_replicas {P S} (pol : policy P) (sampler : S -> arr1 -> Z -> S * res num)
    N K context action position reward (q : nat -> nat -> R) ps p st n_sim v :
  (1 <= n_sim)%nat -> length context = N ->
  calc_ground_truth_policy_value pol sampler
    (mkFeedback (Some (Z.of_nat N)) (Some context) (Some action) (Some (Some position)) (Some reward) (Some (tab2F N K q)) ps)
    p st n_sim = Ok v ->
  exists acts e,
    replicas pol sampler p (combine position context) st acts /\ length acts = n_sim /\
    (forall s t, (s < n_sim)%nat -> (t < N)%nat -> np_get (tabF K (q t)) (nth t (nth s acts []) 0%Z) = Ok (Fin (e s t))) /\
    v = Fin (avg n_sim (fun s => avg N (e s))).
Proof.
  intros Hn HN H. unfold calc_ground_truth_policy_value in H. cbn [fb_action fb_position fb_reward fb_expected_reward fb_context fb_n_rounds has bind] in H.
  pose proof (C94_feedback_validator context action reward (Some (tab2F N K q)) (Some position) None None) as D.
  destruct D as [[D W]|[D _]]; rewrite D in H; cbn [bind] in H; [|discriminate].
  destruct W as (W1 & W2 & [W3 _] & [W4 _] & _ & [W5 _] & _).
  set (rounds := combine (combine position context) (tab2F N K q)) in *.
  assert (LN : length action = N) by congruence.
  assert (Lc : length (combine position context) = N) by (rewrite combine_length; lia).
  assert (LR : length rounds = N) by (unfold rounds, tab2F; rewrite combine_length, tab_length; lia).
  assert (F1 : map fst rounds = combine position context).
  { unfold rounds. rewrite <- (firstn_all (combine position context)) at 2. rewrite Lc.
    assert (LL : length (tab2F N K q) = N) by (unfold tab2F; apply tab_length).
    clear -Lc LL. revert Lc LL. generalize (combine position context) (tab2F N K q). revert N. clear. intros N l m. revert N m.
    induction l; intros [|N] [|y m] H1 H2; simpl in *; try congruence. f_equal. apply IHl; lia. }
  assert (F2 : map snd rounds = tab2F N K q).
  { unfold rounds. assert (LL : length (tab2F N K q) = N) by (unfold tab2F; apply tab_length).
    clear -Lc LL. revert Lc LL. generalize (combine position context) (tab2F N K q). revert N. clear. intros N l m. revert N m.
    induction l; intros [|N] [|y m] H1 H2; simpl in *; try congruence. f_equal. apply (IHl N); lia. }
  destruct n_sim as [|k]; [lia|]. 
  destruct (gt_sims pol sampler rounds p (Datatypes.S k) st (Fin 0)) as [c|x] eqn:E; cbn [bind] in H; [|discriminate].
  apply (gt_sims_replicas pol sampler K) in E as (acts & e & R & L & Q & ->).
  2:{ intros x Hx. assert (Hs : In (snd x) (tab2F N K q)) by (rewrite <- F2; apply in_map; exact Hx).
      unfold tab2F in Hs. apply In_tab in Hs as (i & _ & Hi). exists (q i). symmetry. exact Hi. }
  rewrite F1 in R. exists acts, e. split; auto. split; auto. split.
  - intros s t Hs Ht. rewrite LR, F2 in Q. specialize (Q s t Hs Ht) as [_ Q]. unfold tab2F in Q. rewrite nth_tab in Q by auto. exact Q.
  - assert (HN0 : (1 <= N)%nat) by (destruct action; simpl in *; [congruence|lia]).
    assert (Hv : v = ndiv (Fin (0 + sumn (Datatypes.S k) (fun s => sumn (length rounds) (e s)))) (Fin (IZR (Z.of_nat (Datatypes.S k) * Z.of_nat N)))).
    { unfold gt_divide in H. cbn [Nat.eqb negb andb] in H. congruence. }
    rewrite Hv, LR. rewrite mult_IZR, <- !INR_IZR_INZ.
    assert (P1 : INR (Datatypes.S k) <> 0) by (apply INR_ne; lia). assert (P2 : INR N <> 0) by (apply INR_ne; lia).
    rewrite ndiv_Fin by (apply Rmult_integral_contrapositive; auto). f_equal. unfold avg. rewrite Rplus_0_l.
    rewrite sumn_div. field. auto.
Qed.

(** Consequences: the value is in the range of the expected rewards ... *)
Theorem C82_within_reward_range {P S} (pol : policy P) (sampler : S -> arr1 -> Z -> S * res num)
    N K context action position reward (q : nat -> nat -> R) ps p st n_sim v lo hi :
  (1 <= n_sim)%nat -> length context = N -> (forall t a, (t < N)%nat -> (a < K)%nat -> lo <= q t a <= hi) ->
  calc_ground_truth_policy_value pol sampler
    (mkFeedback (Some (Z.of_nat N)) (Some context) (Some action) (Some (Some position)) (Some reward) (Some (tab2F N K q)) ps)
    p st n_sim = Ok v ->
  exists x, v = Fin x /\ lo <= x <= hi.
Proof.
  intros Hn HN Hq H. assert (HN0 : (1 <= N)%nat).
  { unfold calc_ground_truth_policy_value in H. cbn [fb_action fb_position fb_reward fb_expected_reward fb_context fb_n_rounds has bind] in H.
    pose proof (C94_feedback_validator context action reward (Some (tab2F N K q)) (Some position) None None) as D.
    destruct D as [[D W]|[D _]]; rewrite D in H; cbn [bind] in H; [|discriminate]. destruct W as (W1 & W2 & [W3 _] & _).
    destruct action; simpl in *; [congruence|lia]. }
  apply C82_average_over_replicas in H as (acts & e & R & L & Q & ->); auto. eexists. split; [reflexivity|].
  assert (B : forall s t, (s < n_sim)%nat -> (t < N)%nat -> lo <= e s t <= hi).
  { intros s t Hs Ht. specialize (Q s t Hs Ht). apply np_get_In, In_tab in Q as (i & Hi & Q). injection Q as <-. auto. }
  assert (A : forall n f, (1 <= n)%nat -> (forall i, (i < n)%nat -> lo <= f i <= hi) -> lo <= avg n f <= hi).
  { intros n f Hn' Hf. unfold avg. assert (0 < INR n) by (apply INR_pos; lia).
    assert (sumn n (fun _ => lo) <= sumn n f) by (apply sumn_le; intros; apply Hf; auto).
    assert (sumn n f <= sumn n (fun _ => hi)) by (apply sumn_le; intros; apply Hf; auto).
    rewrite sumn_const in *. split. apply Rmult_le_reg_r with (INR n); auto. unfold Rdiv. rewrite Rmult_assoc, Rinv_l by lra. lra.
    apply Rmult_le_reg_r with (INR n); auto. unfold Rdiv. rewrite Rmult_assoc, Rinv_l by lra. lra. }
  apply A; auto.
Qed.

(** ... it fails without replicas ... *)
Theorem C82_zero_simulations {P S} (pol : policy P) (sampler : S -> arr1 -> Z -> S * res num) fb p st :
  calc_ground_truth_policy_value pol sampler fb p st 0 <> Err TypeError /\
  forall v, calc_ground_truth_policy_value pol sampler fb p st 0 <> Ok v.
Proof.
  unfold calc_ground_truth_policy_value, has.
  destruct (fb_action fb), (fb_position fb), (fb_reward fb), (fb_expected_reward fb), (fb_context fb); cbn [bind]; try (split; discriminate).
  match goal with |- context[check_bandit_feedback_inputs ?a ?b ?c ?d ?e ?f ?g] => destruct (C94_feedback_validator a b c d e f g) as [[-> _]|[-> _]] end;
    cbn [bind]; [|split; discriminate]. destruct (fb_n_rounds fb); split; discriminate.
Qed.

Lemma gt_rounds_shift {P S} (pol : policy P) (sampler : S -> arr1 -> Z -> S * res num) K :
  (forall st c a, fst (sampler st c a) = st) ->
  forall rounds p st c0 x, (forall y, In y rounds -> exists e, snd y = tabF K e) ->
  snd (gt_rounds pol sampler rounds p st (Fin c0)) = Ok (Fin (c0 + x)) ->
  forall c, gt_rounds pol sampler rounds p st (Fin c) = (st, Ok (Fin (c + x))).
Proof.
  intros HS. induction rounds as [|[[pos ctx] ex] rest IH]; intros p st c0 x HK H c.
  - cbn in *. injection H as H. replace (c + x) with c by lra. reflexivity.
  - cbn [gt_rounds] in *. destruct (HK _ (or_introl eq_refl)) as [ef Hef]. cbn in Hef. subst ex.
    destruct (pol_type pol) eqn:Ty; [| |discriminate];
    (match type of H with context[pol_select pol p ?cx] => destruct (pol_select pol p cx) as [p1 [l|z]] eqn:E1; cbn [fst snd bind] in *; [|discriminate] end;
     destruct (np_get l pos) as [a|z] eqn:E2; [|discriminate];
     destruct (sampler st ctx a) as [st1 [r|z]] eqn:E3; cbn [fst snd bind] in *; [|discriminate];
     assert (st1 = st) by (rewrite <- (HS st ctx a), E3; reflexivity); subst st1;
     destruct (np_get (tabF K ef) a) as [v|z] eqn:E4; cbn [bind] in *; [|discriminate];
     apply np_get_In, In_tab in E4 as (i & _ & <-);
     match type of H with context[pol_update ?pl ?p0 ?a0 ?r0 ?cx] => destruct (pol_update pl p0 a0 r0 cx) as [p2 [[]|z]] eqn:E5; cbn [fst snd] in *; [|discriminate] end;
     cbn [nadd] in *; replace (c + x) with ((c + ef i) + (x - ef i)) by lra;
     apply (IH p2 st (c0 + ef i)); [intros y Hy; apply HK; right; exact Hy|];
     rewrite H; do 2 f_equal; lra).
Qed.

(** ... and because every replica starts from a deep copy of the policy, random generator included, more
    replicas average nothing out unless the reward sampler itself is random: with a sampler whose state does
    not change, the result for any number of replicas is the result for one. *)
Theorem C82_replicas_share_randomness {P S} (pol : policy P) (sampler : S -> arr1 -> Z -> S * res num)
    N K context action position reward (q : nat -> nat -> R) ps p st n_sim v :
  (forall st c a, fst (sampler st c a) = st) ->
  (1 <= n_sim)%nat -> length context = N ->
  let run := calc_ground_truth_policy_value pol sampler
    (mkFeedback (Some (Z.of_nat N)) (Some context) (Some action) (Some (Some position)) (Some reward) (Some (tab2F N K q)) ps) p st in
  run 1%nat = Ok v -> run n_sim = Ok v.
Proof.
  intros HS Hn HN run H. unfold run, calc_ground_truth_policy_value in *. cbn [fb_action fb_position fb_reward fb_expected_reward fb_context fb_n_rounds has bind] in *.
  pose proof (C94_feedback_validator context action reward (Some (tab2F N K q)) (Some position) None None) as D.
  destruct D as [[D W]|[D _]]; rewrite D in *; cbn [bind] in *; [|discriminate]. destruct W as (W1 & W2 & [W3 _] & _).
  assert (HN0 : (1 <= N)%nat) by (destruct action; simpl in *; [congruence|lia]).
  set (rounds := combine (combine position context) (tab2F N K q)) in *.
  assert (HK : forall y, In y rounds -> exists e, snd y = tabF K e).
  { intros [y z] Hy. unfold rounds in Hy. apply in_combine_r in Hy. unfold tab2F in Hy. apply In_tab in Hy as (i & _ & <-). exists (q i). reflexivity. }
  destruct n_sim as [|k]; [lia|]. cbn [gt_sims] in H.
  destruct (gt_rounds pol sampler rounds p st (Fin 0)) as [st1 [c1|z]] eqn:E; cbn [fst snd bind] in H; [|discriminate].
  pose proof (gt_rounds_replica pol sampler K rounds p st 0 st1 c1 HK E) as (_ & e & _ & _ & _ & ->).
  set (x := sumn (length rounds) e) in *. rewrite Rplus_0_l in *.
  assert (G := gt_rounds_shift pol sampler K HS rounds p st 0 x HK). rewrite E in G. cbn [snd] in G. rewrite Rplus_0_l in G. specialize (G eq_refl).
  assert (GS : forall n c, gt_sims pol sampler rounds p n st (Fin c) = Ok (Fin (c + INR n * x))).
  { induction n; intros c. cbn. do 2 f_equal. lra. cbn [gt_sims]. rewrite G. cbn [fst snd bind]. rewrite IHn, S_INR. do 2 f_equal. lra. }
  rewrite GS. cbn [bind]. unfold gt_divide in *. cbn [Nat.eqb negb andb] in *.
  assert (P1 : INR (Datatypes.S k) <> 0) by (apply INR_ne; lia). assert (P2 : INR N <> 0) by (apply INR_ne; lia).
  assert (Hv : v = ndiv (Fin x) (Fin (IZR (Z.of_nat 1 * Z.of_nat N)))) by congruence.
  rewrite Hv, !mult_IZR, <- !INR_IZR_INZ.
  rewrite !ndiv_Fin by (apply Rmult_integral_contrapositive; split; auto; simpl; lra). do 2 f_equal. rewrite Rplus_0_l. simpl (INR 1). field. auto.
Qed.

Lemma C82_example : calc_ground_truth_policy_value ex_pol (fun (_ : unit) _ _ => (tt, Ok (Fin 1)))
    (mkFeedback (Some 2%Z) (Some [[Fin 1]; [Fin 2]]) (Some [0; 1]%Z) (Some (Some [0; 0]%Z)) (Some [Fin 1; Fin 0])
       (Some (tab2F 2 2 (fun t a => INR (2 * t + a)))) None) tt tt 1 = Ok (Fin 1).
Proof.
  unfold calc_ground_truth_policy_value. cbn [fb_action fb_position fb_reward fb_expected_reward fb_context fb_n_rounds has bind].
  pose proof (C94_feedback_validator [[Fin 1]; [Fin 2]] [0; 1]%Z [Fin 1; Fin 0] (Some (tab2F 2 2 (fun t a => INR (2 * t + a)))) (Some [0; 0]%Z) None None) as D.
  destruct D as [[-> _]|[_ D]].
  - cbn -[INR IZR ndiv]. rewrite ndiv_Fin by lra. do 2 f_equal. simpl. lra.
  - exfalso. apply D. repeat split; auto; try discriminate; repeat constructor; try lia; cbn; lia.
Qed.
Example C82_ex : (forall st c a, fst ((fun (_ : unit) (_ : arr1) (_ : Z) => (tt, Ok (Fin 1))) st c a) = st) /\ (1 <= 3)%nat /\
  length [[Fin 1]; [Fin 2]] = 2%nat /\ (forall t a, (t < 2)%nat -> (a < 2)%nat -> 0 <= INR (2 * t + a) <= 3) /\
  exists v, calc_ground_truth_policy_value ex_pol (fun (_ : unit) _ _ => (tt, Ok (Fin 1)))
    (mkFeedback (Some 2%Z) (Some [[Fin 1]; [Fin 2]]) (Some [0; 1]%Z) (Some (Some [0; 0]%Z)) (Some [Fin 1; Fin 0])
       (Some (tab2F 2 2 (fun t a => INR (2 * t + a)))) None) tt tt 1 = Ok v.
Proof.
  split; [intros [] _ _; reflexivity|]. split; [lia|]. split; [reflexivity|]. split; [|eexists; apply C82_example].
  intros t a Ht Ha. split; [apply pos_INR|]. replace 3 with (INR 3) by (simpl; lra). apply le_INR. lia.
Qed.

(** ** C96: replay of a log *)

(** As shipped the function never returns: every input raises, valid ones a TypeError; the policy is never
    called, but a missing position has by then been written into the caller's dictionary. *)
Theorem C96_replay_always_raises {P} (pol : policy P) fb p :
  let '(fb', p', out) := run_bandit_replay pol fb p in
  p' = p /\ exists e, out = Err e /\ (fb' = fb \/ exists a, fb_action fb = Some a /\ fb_position fb = Some None /\ fb_position fb' = Some (Some (zzeros (length a)))).
Proof.
  unfold run_bandit_replay, has.
  destruct (fb_action fb), (fb_position fb) as [[|]|], (fb_reward fb), (fb_pscore fb), (fb_context fb); cbn [bind]; try (split; eauto; fail).
  all: match goal with |- context[check_bandit_feedback_inputs ?a ?b ?c ?d ?e ?f ?g] => destruct (C94_feedback_validator a b c d e f g) as [[-> _]|[-> _]] end;
    cbn [bind]; [|split; eauto]. all: destruct (fb_n_rounds fb); cbn; split; auto; eexists; split; eauto; right; eauto.
Qed.
Theorem C96_replay_type_error {P} (pol : policy P) n context action position reward pscore er p :
  check_bandit_feedback_inputs context action reward None position (Some pscore) None = Ok tt ->
  snd (run_bandit_replay pol (mkFeedback (Some n) (Some context) (Some action) (Some position) (Some reward) er (Some pscore)) p) = Err TypeError.
Proof.
  intros H. unfold run_bandit_replay. cbn [fb_action fb_position fb_reward fb_pscore fb_context has bind]. rewrite H. cbn. reflexivity.
Qed.
(** Without one of the keys the log is refused with a RuntimeError: by the replay, and by the computation of the
    ground-truth value. *)
Theorem C96_missing_key {P} (pol : policy P) fb p :
  fb_action fb = None \/ fb_position fb = None \/ fb_reward fb = None \/ fb_pscore fb = None \/ fb_context fb = None ->
  run_bandit_replay pol fb p = (fb, p, Err RuntimeError).
Proof.
  unfold run_bandit_replay, has. destruct (fb_action fb), (fb_position fb), (fb_reward fb), (fb_pscore fb), (fb_context fb); cbn [bind];
    intuition discriminate.
Qed.
Theorem C82_missing_key {P S} (pol : policy P) (sampler : S -> arr1 -> Z -> S * res num) fb p st n_sim :
  fb_action fb = None \/ fb_position fb = None \/ fb_reward fb = None \/ fb_expected_reward fb = None \/ fb_context fb = None ->
  calc_ground_truth_policy_value pol sampler fb p st n_sim = Err RuntimeError.
Proof.
  unfold calc_ground_truth_policy_value, has. destruct (fb_action fb), (fb_position fb), (fb_reward fb), (fb_expected_reward fb), (fb_context fb); cbn [bind];
    intuition discriminate.
Qed.
Example C96_missing_ex : fb_pscore (mkFeedback (Some 1%Z) (Some [[Fin 1]]) (Some [0%Z]) (Some None) (Some [Fin 1]) None None) = None.
Proof. reflexivity. Qed.
Example C96_ex : check_bandit_feedback_inputs [[Fin 1]; [Fin 2]] [0; 1]%Z [Fin 1; Fin 0] None None (Some [Fin (1/2); Fin 1]) None = Ok tt.
Proof.
  apply (decides_Ok _ _ (C94_feedback_validator _ _ _ _ _ _ _)). repeat split; auto; try discriminate; repeat constructor; try lia;
  simpl; apply Rleb_false; lra.
Qed.

(** The loop the function was meant to run: the policy learns from exactly the rounds in which the action it
    lists at the logged position is the logged action, in order, with the logged reward and context. *)
Lemma replay_rounds_log {P} (pol : policy P) : forall rounds p log acc p' log' out,
  replay_rounds (recording pol) rounds (p, log) acc = ((p', log'), Ok out) ->
  exists sel, out = acc ++ sel /\ length sel = length rounds /\
    log' = log ++ map (replay_call (pol_type pol)) (filter matches (combine rounds sel)).
Proof.
  induction rounds as [|[[[a r] pos] c] rest IH]; intros p log acc p' log' out H.
  - cbn in H. injection H as <- <- <-. exists []. rewrite !app_nil_r. auto.
  - cbn [replay_rounds] in H. change (pol_type (recording pol)) with (pol_type pol) in H.
    destruct (pol_type pol) eqn:Ty; [| |discriminate];
    (match type of H with context[pol_select (recording pol) _ ?cx] => cbn [recording pol_select pol_update fst snd] in H;
        destruct (pol_select pol p cx) as [p1 [l|z]]; cbn [fst snd] in H; [|discriminate] end;
     destruct (np_get l pos) as [b|z] eqn:E2; [|discriminate]; destruct (Z.eqb a b) eqn:E3;
     [match type of H with context[pol_update ?pl ?p0 ?a0 ?r0 ?cx] => destruct (pol_update pl p0 a0 r0 cx) as [p2 [[]|z]]; cbn [fst snd] in H; [|discriminate] end|];
     apply IH in H as (sel & -> & L & ->); exists (l :: sel);
     (split; [rewrite <- app_assoc; reflexivity|split; [simpl; congruence|]]);
     cbn [combine filter]; unfold matches at 2; rewrite E2, E3; [cbn [map replay_call]; rewrite <- app_assoc|]; reflexivity).
Qed.
Theorem C96_replay_learns_from_matches {P} (pol : policy P) rounds p p' log out :
  replay_rounds (recording pol) rounds (p, []) [] = ((p', log), Ok out) ->
  length out = length rounds /\ log = map (replay_call (pol_type pol)) (filter matches (combine rounds out)).
Proof. intros H. apply replay_rounds_log in H as (sel & -> & L & ->). auto. Qed.
Example C96_loop_ex : exists p' log out,
  replay_rounds (recording ex_pol) [(0%Z, Fin 1, 0%Z, [Fin 5]); (1%Z, Fin 0, 0%Z, [Fin 6])] (tt, []) [] = ((p', log), Ok out).
Proof. do 3 eexists. reflexivity. Qed.

(** ** C97: rounds drawn one at a time from the environment *)

(** A policy that validates its context as a matrix, as [LinUCB] and [LinEpsilonGreedy] do, can be stepped on
    rounds of a batch but never on a round drawn by [step()] itself: there the (1, d) context of the
    environment gets another leading axis. *)
Theorem C97_environment_rounds_rejected {P} (pol : policy P) s ctx rewards delays rd :
  pol_type pol = Contextual ->
  (forall p c, (forall m, c <> Some (Mat m)) -> snd (pol_select pol p c) = Err ValueError) ->
  next_bandit_round ctx rewards delays = Ok rd ->
  snd (sim_step pol s rd) = Err ValueError /\ sm_actions (fst (sim_step pol s rd)) = sm_actions s.
Proof.
  intros Ty Hs H. assert (C : br_context rd = Mat ctx).
  { unfold next_bandit_round in H. destruct delays as [ds|]; [destruct (np_get ds 0)|]; cbn [bind] in H; try discriminate;
      destruct (np_get rewards 0); cbn [bind] in H; try discriminate; injection H as <-; reflexivity. }
  assert (E : snd (sim_select_action pol (sm_policy s) (br_context rd)) = Err ValueError).
  { unfold sim_select_action. rewrite Ty, C. cbn [snd expand0]. rewrite Hs by congruence. reflexivity. }
  destruct (C95_failed_selection pol s rd ValueError E) as (H1 & _ & _ & H2 & _). auto.
Qed.
(** With a row of a batch the same policy gets the matrix it expects. *)
Theorem C97_batch_rounds_accepted {P} (pol : policy P) p row : pol_type pol = Contextual ->
  sim_select_action pol p (Vec row) =
  (fst (pol_select pol p (Some (Mat [row]))), l <- snd (pol_select pol p (Some (Mat [row]))) ;; np_get l 0).
Proof. intros Ty. unfold sim_select_action. rewrite Ty. reflexivity. Qed.
Definition lin_ucb_policy (argsort : list num -> list nat) (epsilon : num) : policy linp :=
  mkPolicy Contextual
    (fun p c => (p, match c with
                    | Some (Mat m) => l <- lin_ucb_select_action argsort epsilon p m ;; Ok (map Z.of_nat l)
                    | _ => Err ValueError end))
    (fun p _ _ _ => (p, Ok tt)).
Example C97_ex argsort epsilon : pol_type (lin_ucb_policy argsort epsilon) = Contextual /\
  (forall p c, (forall m, c <> Some (Mat m)) -> snd (pol_select (lin_ucb_policy argsort epsilon) p c) = Err ValueError) /\
  exists rd, next_bandit_round [[Fin 1; Fin 2]] [[Fin 1; Fin 0]] None = Ok rd.
Proof.
  split; [reflexivity|split]. intros p [[v|m|c|q]|] H; try reflexivity. destruct (H m eq_refl). eexists. reflexivity.
Qed.

Print Assumptions C77_delivered_when_due.
Print Assumptions C77_due_round.
Print Assumptions C77_never_early.
Print Assumptions C77_exactly_once_after_clear.
Print Assumptions C77_no_spurious_failure.
Print Assumptions C77_recording_is_transparent.
Print Assumptions C78_action_is_first_choice.
Print Assumptions C78_bookkeeping.
Print Assumptions C78_bandit_rounds_iteration.
Print Assumptions C94_feedback_validator.
Print Assumptions C95_failed_selection.
Print Assumptions C95_wrong_context_after_failure.
Print Assumptions C95_failed_delivery_keeps_queue.
Print Assumptions C95_duplicate_delivery_after_failure.
Print Assumptions C95_undelayed_round_skips_due.
Print Assumptions C82_average_over_replicas.
Print Assumptions C82_within_reward_range.
Print Assumptions C82_zero_simulations.
Print Assumptions C82_replicas_share_randomness.
Print Assumptions C96_replay_always_raises.
Print Assumptions C96_replay_type_error.
Print Assumptions C96_replay_learns_from_matches.
Print Assumptions C97_environment_rounds_rejected.
Print Assumptions C97_batch_rounds_accepted.
Print Assumptions C96_missing_key.
Print Assumptions C82_missing_key.
