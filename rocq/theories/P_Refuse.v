(** * P_Refuse: property C148 (no estimator answers on invalid logs) *)

From Coq Require Import Reals List ZArith Bool Lia Lra.
From Verif Require Import Num NpList M_Utils M_Estimators M_Slate M_Multi M_Cont M_Embed S_Base S_Estimators S_Slate S_Refuse S_Examples
  L_Num L_Base L_Utils L_Slate L_Estimators L_Examples P_Slate P_Cont.
Import ListNotations.
Open Scope R_scope.

Lemma raise_value b : raise_if b ValueError = Ok tt \/ raise_if b ValueError = Err ValueError.
Proof. destruct b; simpl; auto. Qed.
Definition two (r : res unit) : Prop := r = Ok tt \/ r = Err ValueError.
Lemma two_seq r k : two r -> two k -> two (r ;;; k).
Proof. intros [-> | ->] H; simpl; auto. right; reflexivity. Qed.
Lemma two_raise b : two (raise_if b ValueError).
Proof. apply raise_value. Qed.
Lemma two_zmin l k : (forall x, two (k x)) -> two (x <- zminl l ;; k x).
Proof. intros H. unfold zminl. destruct l; simpl; [right; reflexivity|apply H]. Qed.
Lemma two_zmax l k : (forall x, two (k x)) -> two (x <- zmaxl l ;; k x).
Proof. intros H. unfold zmaxl. destruct l; simpl; [right; reflexivity|apply H]. Qed.
Lemma two_ok : two (Ok tt). Proof. left; reflexivity. Qed.
Lemma two_err : two (Err ValueError). Proof. right; reflexivity. Qed.

Ltac twos := repeat first [apply two_raise | apply two_ok | apply two_err | apply two_zmin; intros | apply two_zmax; intros | apply two_seq].

Lemma check_two dist position action reward pscore q_hat eiw :
  (action = None -> pscore = None /\ eiw = None) -> (reward = None -> pscore = None) ->
  two (check_ope_inputs dist position action reward pscore q_hat eiw).
Proof.
  intros H1 H2. unfold check_ope_inputs. apply two_seq; [twos|]. apply two_seq; [destruct position; twos|]. apply two_seq; [destruct q_hat; twos|].
  apply two_seq; [destruct eiw; [destruct action; [twos|destruct H1; congruence]|twos]|].
  apply two_seq; [destruct action, reward; twos|].
  destruct pscore; [|twos]. destruct action; [|destruct H1; congruence]. destruct reward; [|specialize (H2 eq_refl); congruence]. twos.
Qed.

Section Check.
Context (n K L : nat) (pi : nat -> nat -> nat -> num) (position : option (list Z)).
Hypothesis Hn : (0 < n)%nat.
Hypothesis HK : (0 < K)%nat.
Let dist := tab3 n K L pi.

Lemma check_policy action reward pscore q_hat eiw : check_ope_inputs dist position action reward pscore q_hat eiw = Ok tt -> policy_ok n K L pi position.
Proof.
  intros H. destruct (check_sound n K L pi position action reward pscore q_hat eiw Hn HK H) as (H1 & H2 & H3 & _). constructor; auto.
  intros i s Hi Hs. destruct (H1 i s Hi Hs) as (v & E & Hv). exists v. split; auto. unfold tol in Hv. lra.
Qed.
Lemma check_log action reward pscore q_hat eiw : check_ope_inputs dist position (Some action) (Some reward) pscore q_hat eiw = Ok tt -> log_ok K action reward.
Proof.
  intros H. destruct (check_sound n K L pi position _ _ pscore q_hat eiw Hn HK H) as (_ & _ & _ & H4 & _).
  destruct (H4 action eq_refl) as (r & E & H0). injection E as <-. constructor; apply H0.
Qed.
Lemma check_ps action reward ps q_hat eiw ue pscore eps : check_ope_inputs dist position (Some action) (Some reward) (Some ps) q_hat eiw = Ok tt ->
  (if ue : bool then eps else pscore) = Some ps -> propensities_ok ue action pscore eps.
Proof.
  intros H E. destruct (check_sound n K L pi position _ _ _ q_hat eiw Hn HK H) as (_ & _ & _ & _ & _ & H6 & _).
  destruct (H6 ps eq_refl) as (a & Ea & Hl & Hx). injection Ea as <-. exists ps. auto.
Qed.
Lemma check_model action reward pscore q eiw : check_ope_inputs dist position action reward pscore (Some q) eiw = Ok tt -> shape3 q = (n, K, L).
Proof. intros H. destruct (check_sound n K L pi position action reward pscore (Some q) eiw Hn HK H) as (_ & _ & _ & _ & _ & _ & H7 & _). auto. Qed.
Lemma check_weights action reward pscore q w : check_ope_inputs dist position (Some action) (Some reward) pscore q (Some w) = Ok tt -> given_weights_ok action w.
Proof.
  intros H. destruct (check_sound n K L pi position _ _ pscore q _ Hn HK H) as (_ & _ & _ & _ & _ & _ & _ & H8).
  destruct (H8 w eq_refl) as (a & Ea & Hl & Hx). injection Ea as <-. split; auto.
Qed.

(** A call that starts with a validation. *)
Lemma guard {A} (P : Prop) (c : res unit) (k : unit -> res A) : two c -> (c = Ok tt -> P) -> guarded P (bind c k).
Proof. intros [-> | ->] H HP; [exfalso; apply HP, H; reflexivity|reflexivity]. Qed.
Lemma guard_bind {A B} (P : Prop) (m : res A) (k : A -> res B) : guarded P m -> guarded P (bind m k).
Proof. intros H HP. rewrite (H HP). reflexivity. Qed.

Lemma ipw_guard round ue reward action ps eps :
  guarded (policy_ok n K L pi position /\ log_ok K action reward /\ propensities_ok ue action ps eps)
    (ipw_like_rounds round ue reward action dist ps position eps).
Proof.
  intros HP. unfold ipw_like_rounds, choose_pscore. destruct (if ue then eps else ps) as [p|] eqn:E; [|reflexivity]. cbn [bind].
  revert HP. apply guard; [apply check_two; congruence|]. intros H. split; [eapply check_policy; eauto|]. split; [eapply check_log; eauto|eapply check_ps; eauto].
Qed.
Lemma dr_guard round ue reward action q ps eps :
  guarded (policy_ok n K L pi position /\ log_ok K action reward /\ propensities_ok ue action ps eps /\ shape3 q = (n, K, L))
    (dr_like_rounds round ue reward action dist q ps position eps).
Proof.
  intros HP. unfold dr_like_rounds, choose_pscore. destruct (if ue then eps else ps) as [p|] eqn:E; [|reflexivity]. cbn [bind].
  revert HP. apply guard; [apply check_two; congruence|]. intros H. split; [eapply check_policy; eauto|]. split; [eapply check_log; eauto|].
  split; [eapply check_ps; eauto|eapply check_model; eauto].
Qed.

Lemma multi_two action reward st ps q : two (check_multi_loggers_ope_inputs dist position (Some action) (Some reward) st (Some ps) q).
Proof. unfold check_multi_loggers_ope_inputs. apply two_seq; [apply check_two; congruence|]. destruct st; twos. Qed.
Lemma multi_sound action reward st ps q : check_multi_loggers_ope_inputs dist position (Some action) (Some reward) st (Some ps) q = Ok tt ->
  check_ope_inputs dist position (Some action) (Some reward) (Some ps) q None = Ok tt /\ forall s, st = Some s -> strata_ok n s.
Proof.
  unfold check_multi_loggers_ope_inputs. intros H. apply bind_Ok in H as ([] & H1 & H). split; auto. intros s ->.
  apply bind_Ok in H as ([] & G1 & H). apply bind_Ok in H as (mn & G2 & H). apply raise_if_inv in G1, H. apply negb_false_iff in G1, H.
  apply Nat.eqb_eq in G1. unfold dist, tab3 in G1. rewrite tab_length in G1. split; auto. intros k Hk. pose proof (zminl_le _ _ _ G2 Hk). apply Z.leb_le in H. lia.
Qed.
Lemma multi_ipw_guard ue round st reward action ps eps :
  guarded (policy_ok n K L pi position /\ log_ok K action reward /\ propensities_ok ue action ps eps /\ (forall s, st = Some s -> strata_ok n s))
    (m_ipw_like ue round st reward action dist ps position eps).
Proof.
  intros HP. unfold m_ipw_like, choose_pscore. destruct (if ue then eps else ps) as [p|] eqn:E; [|reflexivity]. cbn [bind].
  revert HP. apply guard; [apply multi_two|]. intros H. apply multi_sound in H as [H Hs]. split; [eapply check_policy; eauto|]. split; [eapply check_log; eauto|].
  split; [eapply check_ps; eauto|auto].
Qed.
Lemma multi_dr_guard ue round st reward action q ps eps :
  guarded (policy_ok n K L pi position /\ log_ok K action reward /\ propensities_ok ue action ps eps /\ shape3 q = (n, K, L) /\ (forall s, st = Some s -> strata_ok n s))
    (m_dr_like ue round st reward action dist q ps position eps).
Proof.
  intros HP. unfold m_dr_like, choose_pscore. destruct (if ue then eps else ps) as [p|] eqn:E; [|reflexivity]. cbn [bind].
  revert HP. apply guard; [apply multi_two|]. intros H. apply multi_sound in H as [H Hs]. split; [eapply check_policy; eauto|]. split; [eapply check_log; eauto|].
  split; [eapply check_ps; eauto|]. split; [eapply check_model; eauto|auto].
Qed.
End Check.

(** ** C148 *)

(** Replay method, IPW, self-normalised and sub-Gaussian IPW: [ipw_like_interval (round)] is estimate_interval of each. *)
Theorem C148_weighting : forall n K L pi position lam ue reward action ps eps alpha nb choice, (0 < n)%nat -> (0 < K)%nat ->
  let dist := tab3 n K L pi in
  let ok := policy_ok n K L pi position /\ log_ok K action reward in
  let ok' := ok /\ propensities_ok ue action ps eps in
  guarded ok (rm_value reward action dist position) /\
  guarded ok (rm_interval reward action dist position alpha nb choice) /\
  guarded ok' (ipw_value lam ue reward action dist ps position eps) /\
  guarded ok' (snipw_value ue reward action dist ps position eps) /\
  guarded ok' (sgipw_value lam ue reward action dist ps position eps) /\
  guarded ok' (ipw_like_interval (ipw_round lam) ue reward action dist ps position eps alpha nb choice) /\
  guarded ok' (ipw_like_interval snipw_round ue reward action dist ps position eps alpha nb choice) /\
  guarded ok' (ipw_like_interval (sgipw_round lam) ue reward action dist ps position eps alpha nb choice).
Proof.
  intros n K L pi position lam ue reward action ps eps alpha nb choice Hn HK dist ok ok'.
  assert (G0 : forall A (k : unit -> res A), guarded ok (bind (check_ope_inputs dist position (Some action) (Some reward) None None None) k)).
  { intros A k. apply guard; [apply check_two; intuition congruence|]. intros H. split; [eapply check_policy; [exact Hn|exact HK|exact H]|eapply check_log; [exact Hn|exact HK|exact H]]. }
  assert (G1 : forall round, guarded ok' (ipw_like_rounds round ue reward action dist ps position eps)).
  { intros round HP. apply (ipw_guard n K L pi position Hn HK). intros (H1 & H2 & H3). apply HP. split; [split|]; auto. }
  split; [apply G0|]. split; [apply G0|]. repeat split; apply guard_bind, G1.
Qed.

(** Direct method, DR, self-normalised DR, Switch-DR, DR with optimistic shrinkage and sub-Gaussian DR. *)
Theorem C148_model : forall n K L pi position lam ue reward action q ps eps alpha nb choice, (0 < n)%nat -> (0 < K)%nat ->
  let dist := tab3 n K L pi in
  let ok := policy_ok n K L pi position /\ shape3 q = (n, K, L) in
  let ok' := ok /\ log_ok K action reward /\ propensities_ok ue action ps eps in
  guarded ok (dm_value dist q position) /\ guarded ok (dm_interval dist q position alpha nb choice) /\
  guarded ok' (dr_value lam ue reward action dist q ps position eps) /\
  guarded ok' (sndr_value ue reward action dist q ps position eps) /\
  guarded ok' (switch_value lam ue reward action dist q ps position eps) /\
  guarded ok' (dros_value lam ue reward action dist q ps position eps) /\
  guarded ok' (sgdr_value lam ue reward action dist q ps position eps) /\
  guarded ok' (dr_like_interval (dr_round lam) ue reward action dist q ps position eps alpha nb choice) /\
  guarded ok' (dr_like_interval sndr_round ue reward action dist q ps position eps alpha nb choice) /\
  guarded ok' (dr_like_interval (switch_round lam) ue reward action dist q ps position eps alpha nb choice) /\
  guarded ok' (dr_like_interval (dros_round lam) ue reward action dist q ps position eps alpha nb choice) /\
  guarded ok' (dr_like_interval (sgdr_round lam) ue reward action dist q ps position eps alpha nb choice).
Proof.
  intros n K L pi position lam ue reward action q ps eps alpha nb choice Hn HK dist ok ok'.
  assert (G0 : forall A (k : unit -> res A), guarded ok (bind (check_ope_inputs dist position None None None (Some q) None) k)).
  { intros A k. apply guard; [apply check_two; auto|]. intros H. split; [eapply check_policy; [exact Hn|exact HK|exact H]|eapply check_model; [exact Hn|exact HK|exact H]]. }
  assert (G1 : forall round, guarded ok' (dr_like_rounds round ue reward action dist q ps position eps)).
  { intros round HP. apply (dr_guard n K L pi position Hn HK). intros (H1 & H2 & H3 & H4). apply HP. split; [split|]; auto. }
  split; [apply G0|]. split; [apply G0|]. repeat split; apply guard_bind, G1.
Qed.

(** Balanced IPW with estimated importance weights. *)
Theorem C148_balanced : forall n K L pi position lam reward action w alpha nb choice, (0 < n)%nat -> (0 < K)%nat ->
  let ok := policy_ok n K L pi position /\ log_ok K action reward /\ given_weights_ok action w in
  guarded ok (bipw_value lam reward action (tab3 n K L pi) w position) /\
  guarded ok (bipw_interval lam reward action (tab3 n K L pi) w position alpha nb choice).
Proof.
  intros n K L pi position lam reward action w alpha nb choice Hn HK ok. unfold bipw_value, bipw_interval. split; (apply guard; [apply check_two; congruence|]); intros H;
    (split; [eapply (check_policy n K L pi); eassumption|]); (split; [eapply (check_log n K L pi); eassumption|eapply (check_weights n K L pi); eassumption]).
Qed.

(** Multi-logger estimators: naive, balanced and variance-weighted, IPW and DR. *)
Theorem C148_multi_loggers : forall n K L pi position lam ue reward action q stratum ps eps alpha nb choice, (0 < n)%nat -> (0 < K)%nat ->
  let dist := tab3 n K L pi in
  let ok := policy_ok n K L pi position /\ log_ok K action reward /\ propensities_ok ue action ps eps in
  let model := shape3 q = (n, K, L) in
  let strata := strata_ok n stratum in
  (guarded ok (mn_ipw_value lam ue reward action dist ps position eps) /\
   guarded ok (mb_ipw_value lam ue reward action dist ps position eps) /\
   guarded (ok /\ strata) (mw_ipw_value lam ue reward action dist stratum ps position eps) /\
   guarded (ok /\ model) (mn_dr_value lam ue reward action dist q ps position eps) /\
   guarded (ok /\ model) (mb_dr_value lam ue reward action dist q ps position eps) /\
   guarded (ok /\ model /\ strata) (mw_dr_value lam ue reward action dist stratum q ps position eps)) /\
  (guarded ok (mn_ipw_interval lam ue reward action dist ps position eps alpha nb choice) /\
   guarded ok (mb_ipw_interval lam ue reward action dist ps position eps alpha nb choice) /\
   guarded (ok /\ strata) (mw_ipw_interval lam ue reward action dist stratum ps position eps alpha nb choice) /\
   guarded (ok /\ model) (mn_dr_interval lam ue reward action dist q ps position eps alpha nb choice) /\
   guarded (ok /\ model) (mb_dr_interval lam ue reward action dist q ps position eps alpha nb choice) /\
   guarded (ok /\ model /\ strata) (mw_dr_interval lam ue reward action dist stratum q ps position eps alpha nb choice)).
Proof.
  intros n K L pi position lam ue reward action q stratum ps eps alpha nb choice Hn HK dist ok model strata.
  assert (G1 : forall round, guarded ok (m_ipw_like ue round None reward action dist ps position eps)).
  { intros round HP. apply (multi_ipw_guard n K L pi position Hn HK). intros (H1 & H2 & H3 & _). apply HP. split; auto. }
  assert (G2 : forall round, guarded (ok /\ strata) (m_ipw_like ue round (Some stratum) reward action dist ps position eps)).
  { intros round HP. apply (multi_ipw_guard n K L pi position Hn HK). intros (H1 & H2 & H3 & H4). apply HP. split; [split; auto|apply H4; auto]. }
  assert (G3 : forall round, guarded (ok /\ model) (m_dr_like ue round None reward action dist q ps position eps)).
  { intros round HP. apply (multi_dr_guard n K L pi position Hn HK). intros (H1 & H2 & H3 & H4 & _). apply HP. split; [split; auto|auto]. }
  assert (G4 : forall round, guarded (ok /\ model /\ strata) (m_dr_like ue round (Some stratum) reward action dist q ps position eps)).
  { intros round HP. apply (multi_dr_guard n K L pi position Hn HK). intros (H1 & H2 & H3 & H4 & H5). apply HP. split; [split; auto|split; [auto|apply H5; auto]]. }
  split; (split; [|split; [|split; [|split; [|split]]]]); apply guard_bind; auto.
Qed.

(** Marginalised IPW: both policies are validated; without embedding distribution the context is needed. *)
Theorem C148_embeddings : forall n K L pi n' K' L' pi' position sn sel m argsort ppf na fp reward action emb pea ctx alpha nb choice,
  (0 < n)%nat -> (0 < K)%nat -> (0 < n')%nat -> (0 < K')%nat ->
  let ok := policy_ok n K L pi position /\ policy_ok n' K' L' pi' position /\ log_ok K action reward /\ log_ok K' action reward /\
            (pea = None -> ctx = true) in
  guarded ok (mipw_value sn sel m argsort ppf na fp reward action emb (tab3 n' K' L' pi') (tab3 n K L pi) position pea ctx) /\
  guarded ok (mipw_interval sn na fp reward action emb (tab3 n' K' L' pi') (tab3 n K L pi) position pea ctx alpha nb choice).
Proof.
  intros n K L pi n' K' L' pi' position sn sel m argsort ppf na fp reward action emb pea ctx alpha nb choice Hn HK Hn' HK' ok.
  assert (G : forall A (k : unit -> res A), guarded ok (bind (embed_checks reward action (tab3 n' K' L' pi') (tab3 n K L pi) position pea ctx) k)).
  { intros A k. apply guard.
    - unfold embed_checks. apply two_seq; [apply check_two; intuition congruence|]. apply two_seq; [apply check_two; intuition congruence|]. destruct pea; twos.
    - unfold embed_checks. intros H. apply bind_Ok in H as ([] & H1 & H). apply bind_Ok in H as ([] & H2 & H).
      split; [eapply (check_policy n K L pi); eassumption|]. split; [eapply (check_policy n' K' L' pi'); eassumption|]. split; [eapply (check_log n K L pi); eassumption|]. split; [eapply (check_log n' K' L' pi'); eassumption|].
      intros ->. apply raise_if_inv, negb_false_iff in H. auto. }
  split; apply G.
Qed.

(** Kernelised estimators of continuous actions. *)
Theorem C148_continuous : forall k h q reward a_b ps a_e alpha nb choice,
  let ok := well_shaped a_e a_b reward ps None in
  let ok' := well_shaped a_e a_b reward ps (Some q) in
  guarded ok (kipw_value k h reward a_b ps a_e) /\ guarded ok (ksnipw_value k h reward a_b ps a_e) /\
  guarded ok' (kdr_value k h q reward a_b ps a_e) /\
  guarded ok (k_interval (kipw_round k h) None reward a_b ps a_e alpha nb choice) /\
  guarded ok (k_interval (ksnipw_round k h) None reward a_b ps a_e alpha nb choice) /\
  guarded ok' (k_interval (kdr_round k h q) (Some q) reward a_b ps a_e alpha nb choice).
Proof.
  intros k h q reward a_b ps a_e alpha nb choice ok ok'.
  assert (G : forall round qo, guarded (well_shaped a_e a_b reward ps qo) (k_rounds round qo reward a_b ps a_e)).
  { intros round qo H. unfold k_rounds. rewrite (proj2 (C88_ope_inputs_exact a_e a_b reward ps qo) H). reflexivity. }
  repeat split; apply guard_bind, G.
Qed.

(** Slate estimators. *)
Theorem C148_slates : forall ids rew pos p pe len K act q edist alpha nb choice, (0 < K)%nat ->
  let ok := inputs_valid ids rew pos p pe /\ no_repeat ids pos in
  let joint := inputs_valid ids rew pos p pe /\ no_repeat ids pos /\ one_value_per_slate ids p /\ one_value_per_slate ids pe in
  let casc := inputs_valid ids rew pos p pe /\ no_repeat ids pos /\ never_increases ids pos p /\ never_increases ids pos pe in
  (guarded joint (sips_value ids rew pos p pe) /\ guarded joint (snsips_value ids rew pos p pe) /\
   guarded ok (iips_value ids rew pos p pe) /\ guarded ok (sniips_value len ids rew pos p pe) /\
   guarded casc (rips_value ids rew pos p pe) /\ guarded casc (snrips_value len ids rew pos p pe) /\
   guarded (casc /\ cascade_inputs K ids act q edist) (cascade_dr_value len K ids act rew pos p pe q edist)) /\
  (guarded joint (slate_interval check_sips_inputs slate_ipw_rounds ids rew pos p pe alpha nb choice) /\
   guarded joint (slate_interval check_sips_inputs snsips_rounds ids rew pos p pe alpha nb choice) /\
   guarded ok (slate_interval check_iips_inputs slate_ipw_rounds ids rew pos p pe alpha nb choice) /\
   guarded ok (slate_interval check_iips_inputs (sn_position_rounds len) ids rew pos p pe alpha nb choice) /\
   guarded casc (slate_interval check_rips_inputs slate_ipw_rounds ids rew pos p pe alpha nb choice) /\
   guarded casc (slate_interval check_rips_inputs (sn_position_rounds len) ids rew pos p pe alpha nb choice) /\
   guarded (casc /\ cascade_inputs K ids act q edist) (cascade_dr_interval len K ids act rew pos p pe q edist alpha nb choice)).
Proof.
  intros ids rew pos p pe len K act q edist alpha nb choice HK ok joint casc.
  assert (G : forall A P c (k : unit -> res A), decides c P -> guarded P (bind c k)).
  { intros A P c k [[_ H]|[-> _]] HP; [contradiction|reflexivity]. }
  assert (G1 := C39_sips_check ids rew pos p pe). assert (G2 := C39_iips_check ids rew pos p pe). assert (G3 := C39_rips_check ids rew pos p pe).
  assert (G4 := C39_cascade_dr_check K ids act rew pos p pe q edist HK).
  repeat split; apply G; auto.
Qed.

(** Intervals are only given for alpha within [0, 1] and at least one bootstrap sample. *)
Theorem C148_interval_arguments : forall n K L pi position lam ue reward action q w stratum ps eps a_b a_e k h qc ids pos p pe check rounds alpha nb choice,
  let dist := tab3 n K L pi in
  answers (rm_interval reward action dist position alpha nb choice) \/
  answers (ipw_like_interval (ipw_round lam) ue reward action dist ps position eps alpha nb choice) \/
  answers (ipw_like_interval snipw_round ue reward action dist ps position eps alpha nb choice) \/
  answers (ipw_like_interval (sgipw_round lam) ue reward action dist ps position eps alpha nb choice) \/
  answers (dm_interval dist q position alpha nb choice) \/
  answers (dr_like_interval (dr_round lam) ue reward action dist q ps position eps alpha nb choice) \/
  answers (dr_like_interval sndr_round ue reward action dist q ps position eps alpha nb choice) \/
  answers (dr_like_interval (switch_round lam) ue reward action dist q ps position eps alpha nb choice) \/
  answers (dr_like_interval (dros_round lam) ue reward action dist q ps position eps alpha nb choice) \/
  answers (dr_like_interval (sgdr_round lam) ue reward action dist q ps position eps alpha nb choice) \/
  answers (bipw_interval lam reward action dist w position alpha nb choice) \/
  answers (mn_ipw_interval lam ue reward action dist ps position eps alpha nb choice) \/
  answers (mw_ipw_interval lam ue reward action dist stratum ps position eps alpha nb choice) \/
  answers (mn_dr_interval lam ue reward action dist q ps position eps alpha nb choice) \/
  answers (mw_dr_interval lam ue reward action dist stratum q ps position eps alpha nb choice) \/
  answers (k_interval (kipw_round k h) None reward a_b p a_e alpha nb choice) \/
  answers (k_interval (ksnipw_round k h) None reward a_b p a_e alpha nb choice) \/
  answers (k_interval (kdr_round k h qc) (Some qc) reward a_b p a_e alpha nb choice) \/
  answers (slate_interval check rounds ids reward pos p pe alpha nb choice) ->
  0 <= alpha <= 1 /\ (1 <= nb)%Z.
Proof.
  intros n K L pi position lam ue reward action q w stratum ps eps a_b a_e k h qc ids pos p pe check rounds alpha nb choice dist H.
  assert (B : forall l x, estimate_confidence_interval_by_bootstrap l alpha nb choice = Ok x -> 0 <= alpha <= 1 /\ (1 <= nb)%Z).
  { intros l x E. unfold estimate_confidence_interval_by_bootstrap in E. apply bind_Ok in E as ([] & E & _).
    unfold check_confidence_interval_arguments in E. apply bind_Ok in E as ([] & E1 & E2). unfold check_scalar in E1. apply bind_Ok in E1 as ([] & E1 & E1').
    apply raise_if_inv in E1, E1'. cbn in E1, E1'. apply Rltb_false in E1, E1'. unfold check_scalar_Z in E2. apply bind_Ok in E2 as ([] & E2 & _). apply raise_if_inv, Z.ltb_ge in E2.
    split; [lra|lia]. }
  assert (B1 : forall m, answers (bind m (fun rr => estimate_confidence_interval_by_bootstrap rr alpha nb choice)) -> 0 <= alpha <= 1 /\ (1 <= nb)%Z).
  { intros m (x & E). apply bind_Ok in E as (rr & _ & E). eauto. }
  assert (B2 : forall c m, answers (bind c (fun _ : unit => bind m (fun rr => estimate_confidence_interval_by_bootstrap rr alpha nb choice))) -> 0 <= alpha <= 1 /\ (1 <= nb)%Z).
  { intros c m (x & E). apply bind_Ok in E as (rr & _ & E). apply (B1 m). exists x; auto. }
  repeat (destruct H as [H|H]); try (eapply B1; exact H); try (eapply B2; exact H).
  destruct H as (x & E). unfold slate_interval in E. apply bind_Ok in E as ([] & _ & E). apply bind_Ok in E as (rr & _ & E). eauto.
Qed.

(** The hypotheses of a guard hold of ordinary logs, on which the estimators do answer. *)
Example C148_cases :
  policy_ok (lg_n ex_log) (lg_K ex_log) (lg_L ex_log) (fun i a s => Fin (lg_pi ex_log i a s)) (Some (positions ex_log)) /\
  log_ok (lg_K ex_log) (actions ex_log) (rewards ex_log) /\ propensities_ok false (actions ex_log) (Some (pscores ex_log)) None /\
  answers (ipw_value PInf false (rewards ex_log) (actions ex_log) (policy ex_log) (Some (pscores ex_log)) (Some (positions ex_log)) None) /\
  ipw_value PInf false (rewards ex_log) (actions ex_log) (policy ex_log) None (Some (positions ex_log)) None = Err ValueError.
Proof.
  pose proof ex_log_accepted as A.
  assert (C : check_ope_inputs (policy ex_log) (Some (positions ex_log)) (Some (actions ex_log)) (Some (rewards ex_log)) (Some (pscores ex_log)) None None = Ok tt).
  { apply check_ok; auto. left; reflexivity. }
  assert (Hn : (0 < lg_n ex_log)%nat) by (apply (acc_n _ A)). assert (HK : (0 < lg_K ex_log)%nat) by (simpl; lia).
  change (policy ex_log) with (tab3 (lg_n ex_log) (lg_K ex_log) (lg_L ex_log) (fun i a s => Fin (lg_pi ex_log i a s))) in C.
  split; [exact (check_policy _ _ _ _ _ Hn HK _ _ _ _ _ C)|]. split; [exact (check_log _ _ _ _ _ Hn HK _ _ _ _ _ C)|].
  split; [exact (check_ps _ _ _ _ _ Hn HK _ _ _ _ _ false (Some (pscores ex_log)) None C eq_refl)|].
  split; [|reflexivity]. eexists. apply (ipw_value_ok None false ex_log _ (Some (pscores ex_log)) None A); [left; reflexivity|reflexivity].
Qed.

Print Assumptions C148_weighting.
Print Assumptions C148_model.
Print Assumptions C148_balanced.
Print Assumptions C148_multi_loggers.
Print Assumptions C148_embeddings.
Print Assumptions C148_continuous.
Print Assumptions C148_slates.
Print Assumptions C148_interval_arguments.
