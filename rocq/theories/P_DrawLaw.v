(** * P_DrawLaw: property C150 (the generated logs are distributed as the model of logged feedback the expectations are stated for) *)

From Coq Require Import String Reals List ZArith Lia Lra Bool.
From Coquelicot Require Import Coquelicot.
From Verif Require Import Num NpList M_Utils M_Estimators M_Data S_Base S_Prob S_Estimators S_Env S_Data S_Draws
  L_Num L_Base L_Utils L_Prob L_Estimators L_EstProps L_Examples L_Data L_Draws P_Utils P_Estimators P_Data P_Draws P_Var.
Import ListNotations.
Open Scope R_scope.

(** ** Products from the front *)

Lemma dprod_front {A} n : forall (D : nat -> dist A) F,
  expect (dprod (S n) D) F = expect (D 0%nat) (fun x => expect (dprod n (fun i => D (S i))) (fun o => F (x :: o))).
Proof.
  induction n as [|n IH]; intros D F.
  - cbn [dprod]. rewrite expect_dbind. cbn [expect fold_right fst snd]. rewrite expect_dmap. rewrite Rmult_1_r, Rplus_0_r.
    apply expect_ext_all. intros x. cbn. ring.
  - cbn [dprod] in *. rewrite expect_dbind. rewrite IH. apply expect_ext_all. intros x. rewrite expect_dbind. apply expect_ext_all. intros o.
    rewrite !expect_dmap. reflexivity.
Qed.

Lemma dprod_ext {A} n : forall (D D' : nat -> dist A) F, (forall i g, (i < n)%nat -> expect (D i) g = expect (D' i) g) ->
  expect (dprod n D) F = expect (dprod n D') F.
Proof.
  induction n as [|n IH]; intros D D' F H; [reflexivity|]. rewrite !dprod_front. rewrite H by lia. apply expect_ext_all. intros x.
  apply IH. intros; apply H; lia.
Qed.

Lemma dprod_dbind {A B} n (a0 : A) : forall (D : nat -> dist A) (E : nat -> A -> dist B) F,
  expect (dprod n (fun i => dbind (D i) (E i))) F = expect (dprod n D) (fun o => expect (dprod n (fun i => E i (nth i o a0))) F).
Proof.
  induction n as [|n IH]; intros D E F.
  - cbn. ring.
  - rewrite (dprod_front n D), dprod_front, expect_dbind. apply expect_ext_all. intros x.
    transitivity (expect (dprod n (fun i => D (S i))) (fun o => expect (E 0%nat x) (fun y => expect (dprod n (fun i => E (S i) (nth i o a0))) (fun o' => F (y :: o'))))).
    + transitivity (expect (E 0%nat x) (fun y => expect (dprod n (fun i => D (S i))) (fun o => expect (dprod n (fun i => E (S i) (nth i o a0))) (fun o' => F (y :: o'))))).
      * apply expect_ext_all. intros y. apply (IH (fun i => D (S i)) (fun i => E (S i))).
      * apply L_Conc.expect_swap.
    + apply expect_ext_all. intros o. rewrite dprod_front. reflexivity.
Qed.

Lemma mean_dprod {A} n : forall (D : nat -> dist A) (s : nat -> R -> A) F,
  (forall i g, (i < n)%nat -> is_RInt (fun u => g (s i u)) 0 1 (expect (D i) g)) ->
  uniform_mean n (fun us => F (tab n (fun i => s i (us i)))) (expect (dprod n D) F).
Proof.
  induction n as [|n IH]; intros D s F H; cbn [uniform_mean].
  - cbn. ring.
  - exists (fun u => expect (dprod n (fun i => D (S i))) (fun o => F (s 0%nat u :: o))). split.
    + intros u Hu. eapply mean_ext; [|apply (IH (fun i => D (S i)) (fun i => s (S i)) (fun o => F (s 0%nat u :: o)))].
      * intros us _. cbv beta. rewrite tab_S_first. reflexivity.
      * intros i g Hi. apply (H (S i)). lia.
    + rewrite dprod_front. apply (H 0%nat (fun x => expect (dprod n (fun i => D (S i))) (fun o => F (x :: o)))). lia.
Qed.

Lemma In_dbind {A B} (d : dist A) (k : A -> dist B) a p b q : In (a, p) d -> In (b, q) (k a) -> In (b, p * q) (dbind d k).
Proof. intros H1 H2. unfold dbind. apply in_flat_map. exists (a, p). split; auto. apply in_map_iff. exists (b, q). auto. Qed.

Lemma In_dprod {A} n (D : nat -> dist A) (x : nat -> A) : (forall i, (i < n)%nat -> exists p, In (x i, p) (D i) /\ p <> 0) ->
  exists p, In (tab n x, p) (dprod n D) /\ p <> 0.
Proof.
  induction n as [|n IH]; intros H; [exists 1; split; [left; reflexivity|lra]|].
  destruct IH as (p & Hp & Np); [intros; apply H; lia|]. destruct (H n) as (q & Hq & Nq); [lia|].
  exists (p * q). split; [|apply Rmult_integral_contrapositive; auto]. cbn [dprod].
  rewrite tab_S. eapply In_dbind; [exact Hp|]. unfold dmap. apply in_map_iff. exists (x n, q). auto.
Qed.

(** ** C150 *)

Lemma clamp_round n x : (x < n)%nat -> Nat.min x (n - 1) = x.
Proof. lia. Qed.

Lemma coin_int coin p (g : R -> R) : fair_coin coin -> 0 <= p <= 1 ->
  is_RInt (fun v => g (if coin v p then 1 else 0)) 0 1 (g 1 * p + g 0 * (1 - p)).
Proof.
  intros H Hp. apply (is_RInt_ext (V := R_NormedModule) (fun v => plus (g 0) (scal (g 1 - g 0) (if coin v p then 1 else 0)))).
  - intros v _. unfold plus, scal; simpl. unfold mult; simpl. destruct (coin v p); ring.
  - eapply is_RInt_val; [|apply (is_RInt_plus (V := R_NormedModule)); [apply const_int|apply (is_RInt_scal (V := R_NormedModule)), (H p Hp)]].
    unfold plus, scal; simpl. unfold mult; simpl. ring.
Qed.

(** The rounds of a batch as the log of [S_Env] has them. *)
Definition logged_rounds (b : batch) : list (nat * nat * R) :=
  tab (b_n b) (fun i => (i, nth i (b_action b) 0%nat, nth i (b_reward b) 0)).

(** The log a binary dataset generates from uniform numbers is distributed as [log_dist] of the process with its own behaviour policy and
    expected rewards: every function of the log has the mean it has under [log_dist], and no impossible log comes up. *)
Theorem C150_law : forall tn argsort coin d n context g m lg,
  sorts argsort -> fair_coin coin -> possible_coin coin -> (ds_deficient d < ds_K d)%nat -> (0 < n)%nat -> length context = n ->
  mean_table d context n m -> logit_table d context n m lg ->
  ds_binary d = true -> (forall i a, (i < n)%nat -> (a < ds_K d)%nat -> 0 <= m i a <= 1) ->
  exists pi : nat -> nat -> R,
    (forall i a, (i < n)%nat -> (a < ds_K d)%nat -> 0 <= pi i a) /\ (forall i, (i < n)%nat -> sumn (ds_K d) (pi i) = 1) /\
    exists o : (nat -> R) -> (nat -> R) -> list (nat * nat * R),
      (forall us vs, unit_draws us -> unit_draws vs -> exists b,
         synth_batch tn (fun _ => us) argsort d (Z.of_nat n) context (tabR2 n (ds_K d) g) (fun i p => coin (vs i) p) = Ok b /\
         b_n b = n /\ logged_rounds b = o us vs /\ length (b_action b) = n /\ length (b_reward b) = n /\ b_expected b = tabR2 n (ds_K d) m /\
         b_pi b = tab n (fun i => tab (ds_K d) (fun a => [pi i a])) /\ b_pscore b = tab n (fun i => pi i (nth i (b_action b) 0%nat))) /\
      forall pe, let e := fixed_rounds n (ds_K d) pi pe m in
        (forall us vs, unit_draws us -> unit_draws vs -> exists p, In (o us vs, p) (log_dist e) /\ p <> 0) /\
        forall F, uniform_mean2 n (fun us vs => F (o us vs)) (expect (log_dist e) F).
Proof.
  intros tn argsort coin d n context g m lg Hs Hcoin Hposs Hd Hn HL Hm Hlg Hb Hq.
  destruct (batch_of_draws tn argsort d n context g m lg Hs Hd Hn HL Hm Hlg Hb Hq) as (pi & P0 & P1 & HB).
  exists pi. split; auto. split; auto. set (K := ds_K d) in *.
  set (act := fun (us : nat -> R) i => sample_action_row (tab K (pi i)) (us i)).
  assert (HA : forall us, unit_draws us -> forall i, (i < n)%nat -> (act us i < K)%nat /\ 0 < pi i (act us i)).
  { intros us Hus. apply (HB (fun _ => us) (fun _ _ => true)). intros i. specialize (Hus i). lra. }
  exists (fun us vs => tab n (fun i => (i, act us i, if coin (vs i) (m i (act us i)) then 1 else 0))). split.
  - intros us vs Hus Hvs. destruct (HB (fun _ => us) (fun i p => coin (vs i) p)) as [_ EB]; [intros i; specialize (Hus i); lra|].
    eexists. split; [exact EB|]. cbn [b_n b_action b_reward b_expected b_pi b_pscore]. fold (act us). rewrite !tab_length.
    repeat (split; [reflexivity|]). split; [|repeat (split; [reflexivity|])].
    + unfold logged_rounds. cbn [b_n b_action b_reward]. apply tab_ext. intros i Hi. rewrite !nth_tab by auto. reflexivity.
    + apply tab_ext. intros i Hi. rewrite nth_tab by auto. reflexivity.
  - intros pe e. split.
    + intros us vs Hus Hvs. apply In_dprod. intros i Hi. destruct (HA us Hus i Hi) as [A1 A2]. unfold round_dist, e, fixed_rounds. cbn [ev_ctx ev_K ev_pb ev_rd ev_pos].
      set (r := if coin (vs i) (m i (act us i)) then 1 else 0).
      assert (HR : exists q, In (r, q) [(1, m i (act us i)); (0, 1 - m i (act us i))] /\ q <> 0).
      { unfold r. specialize (Hposs (vs i) (m i (act us i)) (Hvs i) (Hq i _ Hi A1)). destruct (coin (vs i) (m i (act us i))).
        - exists (m i (act us i)). split; [left; reflexivity|lra].
        - exists (1 - m i (act us i)). split; [right; left; reflexivity|lra]. }
      destruct HR as (q & Hq' & Nq). exists (1 * (pi i (act us i) * q)). split; [|apply Rmult_integral_contrapositive; split; [lra|apply Rmult_integral_contrapositive; split; [lra|auto]]].
      apply (In_dbind _ _ i 1); [left; reflexivity|]. apply (In_dbind _ _ (act us i) (pi i (act us i))).
      * unfold dtab. apply In_tab. exists (act us i). rewrite (clamp_round n i Hi). auto.
      * unfold dmap. apply in_map_iff. exists (r, q). rewrite (clamp_round n i Hi). rewrite (proj2 (Nat.ltb_lt _ _) A1). auto.
    + intros F.
      set (E := fun i a => let p := if Nat.ltb a K then m i a else 0 in dmap (fun r => (i, a, r)) [(1, p); (0, 1 - p)] : dist (nat * nat * R)).
      exists (fun us => expect (dprod n (fun i => E i (act us i))) F). split.
      * intros us Hus. apply (mean_dprod n (fun i => E i (act us i)) (fun i v => (i, act us i, if coin v (m i (act us i)) then 1 else 0)) F).
        intros i gg Hi. destruct (HA us Hus i Hi) as [A1 _]. unfold E. rewrite (proj2 (Nat.ltb_lt _ _) A1). rewrite expect_dmap. cbn [expect fold_right fst snd]. rewrite Rplus_0_r.
        apply (coin_int coin (m i (act us i)) (fun r => gg (i, act us i, r))); auto.
      * assert (EE : expect (log_dist e) F = expect (dprod n (fun i => dtab K (pi i))) (fun o => expect (dprod n (fun i => E i (nth i o 0%nat))) F)).
        { rewrite <- (dprod_dbind n 0%nat (fun i => dtab K (pi i)) E F). unfold log_dist. cbn [e fixed_rounds ev_n]. apply dprod_ext. intros i gg Hi.
          unfold round_dist, e, fixed_rounds. cbn [ev_ctx ev_K ev_pb ev_rd ev_pos]. rewrite expect_dbind. cbn [expect fold_right fst snd]. rewrite (clamp_round n i Hi). rewrite Rmult_1_r, Rplus_0_r.
          rewrite !expect_dbind. apply expect_ext_all. intros a. reflexivity. }
        rewrite EE.
        eapply mean_ext; [|apply (mean_dprod n (fun i => dtab K (pi i)) (fun i u => sample_action_row (tab K (pi i)) u) (fun o => expect (dprod n (fun i => E i (nth i o 0%nat))) F))].
        -- intros us Hus. cbn. apply dprod_ext. intros i gg Hi. rewrite nth_tab by auto. reflexivity.
        -- intros i gg Hi. rewrite expect_dtab. rewrite (sumn_ext _ (fun a => gg a * pi i a) (fun a => pi i a * gg a)) by (intros; ring).
           apply sampler_mean; auto.
Qed.

(** What the process and the batch have in common: the library's arguments, and the value of a policy. *)
Lemma fixed_rounds_ok n K pi pe m : (0 < n)%nat ->
  (forall i a, (i < n)%nat -> (a < K)%nat -> 0 <= pi i a) -> (forall i, (i < n)%nat -> sumn K (pi i) = 1) ->
  (forall i a, (i < n)%nat -> (a < K)%nat -> 0 <= pe i a) -> (forall i, (i < n)%nat -> sumn K (pe i) = 1) ->
  (forall i a, (i < n)%nat -> (a < K)%nat -> 0 <= m i a <= 1) ->
  env_ok (fixed_rounds n K pi pe m).
Proof.
  intros Hn P0 P1 E0 E1 M0. assert (C : forall x, (Nat.min x (n - 1) < n)%nat) by (intros; lia).
  constructor; cbn [fixed_rounds ev_n ev_K ev_L ev_pos ev_ctx ev_pb ev_pe ev_rd]; auto; try lia; try (intros; solve [apply P0; auto | apply E0; auto | apply (P1 _ (C _)) | apply (E1 _ (C _))]).
  - intros i _. split; [intros a p [[= <- <-]|[]]; lra|]. cbn. lra.
  - intros x s a. cbv zeta. assert (H : 0 <= (if Nat.ltb a K then m (Nat.min x (n - 1)) a else 0) <= 1).
    { destruct (Nat.ltb_spec a K); [apply M0; auto|lra]. }
    set (p := if Nat.ltb a K then m (Nat.min x (n - 1)) a else 0) in *. split; [intros r q [[= <- <-]|[[= <- <-]|[]]]; lra|]. cbn. lra.
Qed.

Lemma policy_value_rounds n K pi pe m : (0 < n)%nat -> policy_value (fixed_rounds n K pi pe m) = avg n (fun i => sumn K (fun a => pe i a * m i a)).
Proof.
  intros Hn. unfold policy_value, q_true, fixed_rounds. cbn [ev_n ev_K ev_ctx ev_pe ev_pos ev_rd]. apply avg_ext. intros i Hi. cbn [expect fold_right fst snd].
  rewrite (clamp_round n i Hi), Rmult_1_r, Rplus_0_r. apply sumn_ext. intros a Ha. rewrite (proj2 (Nat.ltb_lt _ _) Ha). ring.
Qed.

(** Everything proved in expectation over [log_dist] holds on the generated logs, averaged over the uniform numbers: the process is a valid
    one, its policy value is the ground truth the dataset reports, the library sees the batch as that process's log, and a program with
    mean [v] over [log_dist] has mean [v] over the draws. *)
Theorem C150_transfer : forall tn argsort coin d n context g m lg,
  sorts argsort -> fair_coin coin -> possible_coin coin -> (ds_deficient d < ds_K d)%nat -> (0 < n)%nat -> length context = n ->
  mean_table d context n m -> logit_table d context n m lg ->
  ds_binary d = true -> (forall i a, (i < n)%nat -> (a < ds_K d)%nat -> 0 <= m i a <= 1) ->
  let K := ds_K d in
  let generate us vs := synth_batch tn (fun _ => us) argsort d (Z.of_nat n) context (tabR2 n K g) (fun i p => coin (vs i) p) in
  exists pi : nat -> nat -> R,
    (forall i a, (i < n)%nat -> (a < K)%nat -> 0 <= pi i a) /\ (forall i, (i < n)%nat -> sumn K (pi i) = 1) /\
    forall pe, (forall i a, (i < n)%nat -> (a < K)%nat -> 0 <= pe i a) -> (forall i, (i < n)%nat -> sumn K (pe i) = 1) ->
    let e := fixed_rounds n K pi pe m in
    env_ok e /\
    ((forall i a, (i < n)%nat -> (a < K)%nat -> 0 < pe i a -> 0 < pi i a) -> common_support e) /\
    (forall us vs, unit_draws us -> unit_draws vs -> exists b, generate us vs = Ok b /\
       (exists p, In (logged_rounds b, p) (log_dist e) /\ p <> 0) /\
       ground_truth (map (map Fin) (b_expected b)) (tab3F n K 1 (fun i a _ => pe i a)) = Ok (Fin (policy_value e)) /\
       forall qh, let l := log_of e (ev_pb e) qh (logged_rounds b) in
         rewards l = map Fin (b_reward b) /\ actions l = map Z.of_nat (b_action b) /\ pscores l = map Fin (b_pscore b) /\
         policy l = tab3F n K 1 (fun i a _ => pe i a) /\ model l = tab3F n K 1 qh) /\
    (forall F, uniform_mean2 n (fun us vs => match generate us vs with Ok b => F (logged_rounds b) | Err _ => 0 end) (expect (log_dist e) F)) /\
    forall (f : list (nat * nat * R) -> res num) v, expects (log_dist e) f v -> exists X,
      (forall us vs, unit_draws us -> unit_draws vs -> exists b, generate us vs = Ok b /\ f (logged_rounds b) = Ok (Fin (X us vs))) /\ uniform_mean2 n X v.
Proof.
  intros tn argsort coin d n context g m lg Hs Hcoin Hposs Hd Hn HL Hm Hlg Hb Hq K generate.
  destruct (C150_law tn argsort coin d n context g m lg Hs Hcoin Hposs Hd Hn HL Hm Hlg Hb Hq) as (pi & P0 & P1 & o & HB & HF).
  exists pi. split; auto. split; auto. intros pe E0 E1 e. destruct (HF pe) as [HI HU]. fold K e in HI, HU.
  assert (C : forall x, (Nat.min x (n - 1) < n)%nat) by (intros; lia).
  split; [apply fixed_rounds_ok; auto|]. split; [intros Hsup x a s Ha; cbn; apply Hsup; auto|]. split; [|split].
  - intros us vs Hus Hvs. destruct (HB us vs Hus Hvs) as (b & EB & B1 & B2 & B3 & B4 & B5 & B6 & B7). exists b. split; [exact EB|].
    split; [rewrite B2; auto|]. split.
    + destruct (C59_policy_value n K 1 m (fun i a _ => pe i a) 0 1 Hn ltac:(lia) E0 E1 Hq) as (v & Ev & Vv & _).
      unfold e. rewrite policy_value_rounds by auto. rewrite <- Vv, <- Ev. f_equal. rewrite B5. unfold tabR2, tab2F, tabF. rewrite map_tab. apply tab_ext. intros i Hi. rewrite map_tab. reflexivity.
    + intros qh l.
      assert (Nth : forall i, (i < n)%nat -> nth_error (logged_rounds b) i = Some (i, nth i (b_action b) 0%nat, nth i (b_reward b) 0)).
      { intros i Hi. unfold logged_rounds. rewrite B1, nth_error_tab by auto. reflexivity. }
      assert (List : forall A (x : list A) a0, length x = n -> x = tab n (fun i => nth i x a0)).
      { intros A x a0 Hx. rewrite <- Hx. apply list_tab. }
      unfold rewards, actions, pscores, policy, model, l, log_of, e, fixed_rounds, tabF, tabZ, tab3F. cbn [lg_n lg_r lg_a lg_p lg_K lg_L lg_pi lg_q ev_n ev_K ev_L ev_pos ev_pb ev_pe].
      split; [|split; [|split; [|split]]].
      * rewrite (List _ (b_reward b) 0 B4) at 1. rewrite map_tab. apply tab_ext. intros i Hi. rewrite (Nth i Hi). reflexivity.
      * rewrite (List _ (b_action b) 0%nat B3) at 1. rewrite map_tab. apply tab_ext. intros i Hi. rewrite (Nth i Hi). reflexivity.
      * rewrite B7, map_tab. apply tab_ext. intros i Hi. rewrite (Nth i Hi), (clamp_round n i Hi). reflexivity.
      * apply tab_ext. intros i Hi. rewrite (Nth i Hi), (clamp_round n i Hi). reflexivity.
      * apply tab_ext. intros i Hi. rewrite (Nth i Hi). reflexivity.
  - intros F. destruct (HU F) as (G & HG & HM). exists G. split; auto. intros us Hus. eapply mean_ext; [|apply (HG us Hus)].
    intros vs Hvs. cbv beta. destruct (HB us vs Hus Hvs) as (b & EB & _ & B2 & _). change (generate us vs = Ok b) in EB. rewrite EB, B2. reflexivity.
  - intros f v (gf & Hg & Hv). exists (fun us vs => gf (o us vs)). split.
    + intros us vs Hus Hvs. destruct (HB us vs Hus Hvs) as (b & EB & _ & B2 & _). exists b. split; [exact EB|]. rewrite B2. destruct (HI us vs Hus Hvs) as (p & Hp & Np). eapply Hg; eauto.
    + rewrite <- Hv. apply HU.
Qed.

(** For instance: of all tables of predictions, the expected rewards the dataset reports give doubly robust estimation the least mean
    squared error over the draws. *)
Theorem C150_best_model : forall tn argsort coin d n context g m lg,
  sorts argsort -> fair_coin coin -> possible_coin coin -> (ds_deficient d < ds_K d)%nat -> (0 < n)%nat -> length context = n ->
  mean_table d context n m -> logit_table d context n m lg ->
  ds_binary d = true -> (forall i a, (i < n)%nat -> (a < ds_K d)%nat -> 0 <= m i a <= 1) ->
  let K := ds_K d in
  let generate us vs := synth_batch tn (fun _ => us) argsort d (Z.of_nat n) context (tabR2 n K g) (fun i p => coin (vs i) p) in
  exists pi : nat -> nat -> R, (forall i, (i < n)%nat -> sumn K (pi i) = 1) /\
    forall pe qh, (forall i a, (i < n)%nat -> (a < K)%nat -> 0 <= pe i a) -> (forall i, (i < n)%nat -> sumn K (pe i) = 1) ->
    (forall i a, (i < n)%nat -> (a < K)%nat -> 0 < pe i a -> 0 < pi i a) ->
    let dist := tab3F n K 1 (fun i a _ => pe i a) in
    exists (dr best : (nat -> R) -> (nat -> R) -> R) v A B,
      (forall us vs, unit_draws us -> unit_draws vs -> exists b, generate us vs = Ok b /\
         ground_truth (map (map Fin) (b_expected b)) dist = Ok (Fin v) /\
         dr_value PInf false (map Fin (b_reward b)) (map Z.of_nat (b_action b)) dist (tab3F n K 1 (fun i a _ => qh i a)) (Some (map Fin (b_pscore b))) None None = Ok (Fin (dr us vs)) /\
         dr_value PInf false (map Fin (b_reward b)) (map Z.of_nat (b_action b)) dist (map (map (fun x => [Fin x])) (b_expected b)) (Some (map Fin (b_pscore b))) None None = Ok (Fin (best us vs))) /\
      uniform_mean2 n (fun us vs => (dr us vs - v) ^ 2) A /\ uniform_mean2 n (fun us vs => (best us vs - v) ^ 2) B /\ B <= A.
Proof.
  intros tn argsort coin d n context g m lg Hs Hcoin Hposs Hd Hn HL Hm Hlg Hb Hq K generate.
  destruct (C150_transfer tn argsort coin d n context g m lg Hs Hcoin Hposs Hd Hn HL Hm Hlg Hb Hq) as (pi & P0 & P1 & HT). fold K in P0, P1, HT.
  exists pi. split; auto. intros pe qh E0 E1 Hsup dist. destruct (HT pe E0 E1) as (He & Hcs & HB & HF & _). specialize (Hcs Hsup).
  set (e := fixed_rounds n K pi pe m) in *.
  destruct (C135_dr_mse nat e (fun i a _ => qh i a) None He Hcs) as (dr & best & ipw & HV & HM).
  { intros q o. right. split; [reflexivity|]. split; [reflexivity|]. intros; reflexivity. }
  cbv zeta in HM. destruct HM as (_ & _ & HM).
  set (at_draws := fun (f : list (nat * nat * R) -> R) us vs => match generate us vs with Ok b => f (logged_rounds b) | Err _ => 0 end).
  exists (at_draws dr), (at_draws best), (policy_value e), (expect (log_dist e) (fun o => (dr o - policy_value e) * (dr o - policy_value e))),
    (expect (log_dist e) (fun o => (best o - policy_value e) * (best o - policy_value e))).
  assert (MM : forall f : list (nat * nat * R) -> R, uniform_mean2 n (fun us vs => (at_draws f us vs - policy_value e) ^ 2) (expect (log_dist e) (fun o => (f o - policy_value e) * (f o - policy_value e)))).
  { intros f. destruct (HF (fun o => (f o - policy_value e) * (f o - policy_value e))) as (G & HG & HGM). exists G. split; auto. intros us Hus. eapply mean_ext; [|apply (HG us Hus)].
    intros vs Hvs. cbv beta. unfold at_draws. destruct (HB us vs Hus Hvs) as (b & EB & _). change (generate us vs = Ok b) in EB. unfold generate in EB. rewrite EB. unfold generate. rewrite EB. ring. }
  split; [|split; [apply MM|split; [apply MM|exact HM]]].
  intros us vs Hus Hvs. destruct (HB us vs Hus Hvs) as (b & EB & (p & Hp & Np) & Hgt & Hview). exists b. split; [exact EB|]. split; [exact Hgt|].
  destruct (HV _ _ Hp Np) as (V1 & V2 & _). cbv zeta in V1, V2. change (generate us vs = Ok b) in EB. unfold at_draws. rewrite EB.
  destruct (Hview (fun i a _ => qh i a)) as (R1 & R2 & R3 & R4 & R5). cbv zeta in R1, R2, R3, R4, R5. rewrite R1, R2, R3, R4, R5 in V1. split; [exact V1|].
  destruct (Hview (fun x a s => q_true e x s a)) as (Q1 & Q2 & Q3 & Q4 & Q5). cbv zeta in Q1, Q2, Q3, Q4, Q5. rewrite Q1, Q2, Q3, Q4, Q5 in V2. rewrite <- V2. f_equal.
  destruct (C150_law tn argsort coin d n context g m lg Hs Hcoin Hposs Hd Hn HL Hm Hlg Hb Hq) as (pi' & _ & _ & o' & HB' & _).
  destruct (HB' us vs Hus Hvs) as (b' & EB' & _ & _ & _ & _ & B5 & _). change (generate us vs = Ok b') in EB'. rewrite EB in EB'. injection EB' as <-. rewrite B5.
  unfold tabR2, tab3F. rewrite map_tab. apply tab_ext. intros i Hi. rewrite map_tab. apply tab_ext. intros a Ha.
  unfold q_true, e, fixed_rounds. cbn [ev_rd]. rewrite (clamp_round n i Hi), (proj2 (Nat.ltb_lt a K) Ha). cbn [expect fold_right fst snd]. unfold tabF, tab. cbn [map seq]. do 2 f_equal. ring.
Qed.

Lemma less_is_possible : possible_coin (fun v p => Rltb v p).
Proof. intros v p Hv Hp. destruct (Rltb v p) eqn:E; [apply Rltb_true in E|apply Rltb_false in E]; lra. Qed.

(** A dataset meeting the hypotheses: [C58_example]'s, with the comparison as its coin. *)
Example C150_case : forall n g, (0 < n)%nat -> exists pi : nat -> nat -> R, (forall i, (i < n)%nat -> sumn 3 (pi i) = 1) /\
  forall F, uniform_mean2 n (fun us vs => match synth_batch ex_tn (fun _ => us) insertion_argsort ex_data (Z.of_nat n) (repeat [0] n) (tabR2 n 3 g) (fun i p => Rltb (vs i) p) with
                                        | Ok b => F (logged_rounds b) | Err _ => 0 end)
    (expect (log_dist (fixed_rounds n 3 pi (fun _ _ => 1 / 3) (fun _ a => INR a / 4))) F).
Proof.
  intros n g Hn. destruct (C58_example n Hn) as (E1 & _ & E3 & E4 & E5).
  destruct (C150_transfer ex_tn insertion_argsort (fun v p => Rltb v p) ex_data n (repeat [0] n) g (fun _ a => INR a / 4) (fun _ a => INR a / 4)) as (pi & _ & P1 & H);
    auto using less_is_coin, less_is_possible, repeat_length.
  { intros i a Hi Ha. apply ex_mean; auto. }
  exists pi. split; auto. destruct (H (fun _ _ => 1 / 3)) as (_ & _ & _ & HF & _); [intros; lra|intros; cbn; lra|]. exact HF.
Qed.

Print Assumptions C150_law.
Print Assumptions C150_transfer.
Print Assumptions C150_best_model.
