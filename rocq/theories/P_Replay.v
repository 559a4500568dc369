(** * P_Replay: what the replay method estimates (C138). *)

From Coq Require Import Reals List ZArith Bool Lia Lra.
From Verif Require Import Num NpList M_Utils M_Estimators S_Base S_Prob S_Estimators S_Env
  L_Num L_Base L_Prob L_Utils L_Estimators L_EstProps L_Unbiased L_Examples L_Conc.
Import ListNotations.
Open Scope R_scope.

(** Sums over the rounds of a log, from the end. *)
Section Sums.
  Context {A : Type} (b : A -> bool) (r : A -> R).
  Definition count (o : list A) : R := Rsum (map (fun y => if b y then 1 else 0) o).
  Definition total (v : R) (o : list A) : R := Rsum (map (fun y => if b y then r y - v else 0) o).

  Lemma total_snoc v o x : total v (o ++ [x]) = total v o + (if b x then r x - v else 0).
  Proof. unfold total. rewrite map_app, Rsum_app. unfold Rsum. simpl. ring. Qed.
  Lemma count_flags o : count o = Rsum (map (fun c : bool => if c then 1 else 0) (map b o)).
  Proof. unfold count. rewrite map_map. reflexivity. Qed.
  Lemma total_split v o : total v o = total 0 o - v * count o.
  Proof.
    unfold total, count. induction o as [|x o IH]; simpl; [unfold Rsum; simpl; ring|].
    unfold Rsum in *. simpl. rewrite IH. destruct (b x); ring.
  Qed.
  Lemma count_nonneg o : 0 <= count o.
  Proof. unfold count, Rsum. induction o; simpl; [lra|]. destruct (b a); lra. Qed.
  Lemma count_zero o : count o = 0 <-> forallb (fun y => negb (b y)) o = true.
  Proof.
    induction o as [|x o IH]; [unfold count, Rsum; simpl; tauto|].
    pose proof (count_nonneg o). unfold count, Rsum in *. simpl. destruct (b x); simpl; [split; [lra|discriminate]|]. rewrite <- IH. split; lra.
  Qed.

  (** If matched rewards average [v] in every round, then so do they jointly with any function of the pattern of matches. *)
  Lemma pattern_mean v n (D : nat -> dist A) : (forall i, (i < n)%nat -> is_dist (D i) /\ expect (D i) (fun y => if b y then r y - v else 0) = 0) ->
    forall F : list bool -> R, expect (dprod n D) (fun o => total v o * F (map b o)) = 0.
  Proof.
    induction n as [|n IH]; intros HD F.
    - cbn. unfold total, Rsum. simpl. ring.
    - cbn [dprod]. rewrite expect_dbind.
      rewrite (expect_ext_all _ _ (fun o => expect (D n) (fun x => total v o * F (map b o ++ [b x])) + 0)).
      2:{ intros o. rewrite expect_dmap.
          replace 0 with (expect (D n) (fun y => if b y then r y - v else 0) * F (map b o ++ [true])) by (rewrite (proj2 (HD n ltac:(lia))); ring).
          rewrite <- expect_scal_r, <- expect_plus. apply expect_ext_all. intros x. rewrite total_snoc, map_app. cbn [map]. destruct (b x); ring. }
      rewrite (expect_ext_all _ _ (fun o => expect (D n) (fun x => total v o * F (map b o ++ [b x])))) by (intros; ring).
      rewrite expect_swap. rewrite (expect_ext_all _ _ (fun _ => 0)); [apply expect_const, HD; lia|].
      intros x. apply (IH ltac:(intros; apply HD; lia) (fun l => F (l ++ [b x]))).
  Qed.

  Lemma no_match c n (D : nat -> dist A) : (forall i, (i < n)%nat -> is_dist (D i) /\ expect (D i) (fun y => if b y then 1 else 0) = c) ->
    expect (dprod n D) (fun o => if forallb (fun y => negb (b y)) o then 1 else 0) = (1 - c) ^ n.
  Proof.
    induction n as [|n IH]; intros HD; [cbn; ring|]. cbn [dprod pow]. rewrite expect_dbind.
    rewrite (expect_ext_all _ _ (fun o => (1 - c) * (if forallb (fun y => negb (b y)) o then 1 else 0))).
    - rewrite expect_scal, IH by (intros; apply HD; lia). reflexivity.
    - intros o. rewrite expect_dmap. destruct (HD n ltac:(lia)) as [H1 H2]. rewrite <- H2.
      rewrite (expect_ext_all _ _ (fun x => (if forallb (fun y => negb (b y)) o then 1 else 0) - (if forallb (fun y => negb (b y)) o then 1 else 0) * (if b x then 1 else 0))).
      + rewrite expect_minus, expect_const, expect_scal by auto. ring.
      + intros x. rewrite forallb_app. cbn [forallb]. destruct (forallb _ o), (b x); cbn; ring.
  Qed.

  Lemma replay_mean v c n (D : nat -> dist A) :
    (forall i, (i < n)%nat -> is_dist (D i) /\ expect (D i) (fun y => if b y then 1 else 0) = c /\ expect (D i) (fun y => if b y then r y - v else 0) = 0) ->
    expect (dprod n D) (fun o => if Req_EM_T (count o) 0 then 0 else total 0 o / count o) = v * (1 - (1 - c) ^ n).
  Proof.
    intros HD. assert (HP : is_dist (dprod n D)) by (apply is_dist_dprod; intros; apply HD; auto).
    pose proof (no_match c n D ltac:(intros i Hi; destruct (HD i Hi) as (?&?&?); auto)) as N.
    pose proof (pattern_mean v n D ltac:(intros i Hi; destruct (HD i Hi) as (?&?&?); auto)
      (fun l => let m := Rsum (map (fun c : bool => if c then 1 else 0) l) in if Req_EM_T m 0 then 0 else / m)) as P. cbv zeta in P.
    rewrite (expect_ext_all _ _ (fun o => total v o * (let m := Rsum (map (fun c : bool => if c then 1 else 0) (map b o)) in if Req_EM_T m 0 then 0 else / m)
       + v * (1 - (if forallb (fun y => negb (b y)) o then 1 else 0)))).
    - cbv zeta. rewrite expect_plus, P, expect_scal, expect_minus, expect_const, N by auto. ring.
    - intros o. cbv zeta. rewrite <- count_flags, (total_split v o). pose proof (count_zero o) as Z. destruct (Req_EM_T (count o) 0) as [E|E].
      + rewrite (proj1 Z E). ring.
      + destruct (forallb (fun y => negb (b y)) o); [exfalso; apply E, Z; auto|]. field. auto.
  Qed.
End Sums.

Lemma sumn_single n f k : (k < n)%nat -> (forall i, (i < n)%nat -> i <> k -> f i = 0) -> sumn n f = f k.
Proof.
  induction n as [|n IH]; intros Hk H; [lia|]. change (sumn (S n) f) with (sumn n f + f n). destruct (Nat.eq_dec k n) as [->|Hne].
  - rewrite sumn_zero; [ring|]. intros i Hi. apply H; lia.
  - rewrite IH by (try lia; intros; apply H; lia). rewrite (H n) by lia. ring.
Qed.
Lemma sum_rounds {A} (g : A -> R) (o : list A) : sumn (length o) (fun i => match nth_error o i with Some y => g y | None => 0 end) = Rsum (map g o).
Proof. induction o as [|x o IH]; [reflexivity|]. cbn [length]. rewrite sumn_S_first. cbn [nth_error]. rewrite IH. reflexivity. Qed.

(** Identically distributed rounds (contexts in distribution [mu], position [s]), a deterministic evaluation policy [d]. *)
Definition identical_rounds {X} (e : benv X) (mu : dist X) (s : nat) : Prop :=
  forall i, (i < ev_n e)%nat -> ev_ctx e i = mu /\ ev_pos e i = s.
Definition deterministic {X} (e : benv X) (d : X -> nat) (s : nat) : Prop :=
  forall x, (d x < ev_K e)%nat /\ forall a, (a < ev_K e)%nat -> ev_pe e x a s = if Nat.eqb a (d x) then 1 else 0.

(** In expectation the replay estimate is the value of the policy in the contexts where the logging policy agrees with it
    (weighted by the probability of agreeing), times the probability that some round agrees. *)
Theorem C138_expected : forall X (e : benv X) qh arg mu s d, env_ok e -> identical_rounds e mu s -> deterministic e d s ->
  (forall o, position_arg (log_of e (ev_pb e) qh o) arg) ->
  let agree := expect mu (fun x => ev_pb e x s (d x)) in
  0 < agree ->
  expects (log_dist e) (fun o => let l := log_of e (ev_pb e) qh o in rm_value (rewards l) (actions l) (policy l) arg)
    (expect mu (fun x => ev_pb e x s (d x) * q_true e x s (d x)) / agree * (1 - (1 - agree) ^ ev_n e)).
Proof.
  intros X e qh arg mu s d He Hid Hdet Harg agree Hpos.
  set (b := fun y : X * nat * R => let '(x, a, _) := y in if Req_EM_T (ev_pe e x a s) 1 then true else false).
  set (r := fun y : X * nat * R => snd y).
  exists (fun o => if Req_EM_T (count b o) 0 then 0 else total b r 0 o / count b o). split.
  - intros o p Ho Hp. cbv zeta. rewrite rm_value_ok by (auto; eapply (accepted_log e He); eauto). do 2 f_equal. unfold spec_rm.
    assert (Hl : length o = ev_n e) by (apply (In_dprod _ _ _ _ Ho Hp)).
    assert (HI := In_dprod_opt _ _ _ _ Ho Hp).
    assert (E1 : sumn (lg_n (log_of e (ev_pb e) qh o)) (matched (log_of e (ev_pb e) qh o)) = count b o).
    { cbn [lg_n log_of]. unfold count. rewrite <- sum_rounds, Hl. apply sumn_ext. intros i Hi. destruct (HI i Hi) as ([[x a] v] & q & E & _).
      unfold matched. cbn [lg_pi lg_a lg_pos log_of]. rewrite E. destruct (Hid i Hi) as [_ ->]. unfold b. destruct (Req_EM_T (ev_pe e x a s) 1); reflexivity. }
    assert (E2 : sumn (lg_n (log_of e (ev_pb e) qh o)) (fun i => matched (log_of e (ev_pb e) qh o) i * lg_r (log_of e (ev_pb e) qh o) i) = total b r 0 o).
    { cbn [lg_n log_of]. unfold total. rewrite <- sum_rounds, Hl. apply sumn_ext. intros i Hi. destruct (HI i Hi) as ([[x a] v] & q & E & _).
      unfold matched. cbn [lg_pi lg_a lg_pos lg_r log_of]. rewrite E. destruct (Hid i Hi) as [_ ->]. unfold b, r. cbn [snd].
      destruct (Req_EM_T (ev_pe e x a s) 1); ring. }
    rewrite E1, E2. reflexivity.
  - unfold log_dist. apply replay_mean. intros i Hi. split; [apply is_dist_round; auto|]. destruct (Hid i Hi) as [Hc Hs].
    assert (Hrd : forall x a, is_dist (ev_rd e x s a)) by (intros; apply He).
    assert (Hb : forall x a v, (a < ev_K e)%nat -> b (x, a, v) = Nat.eqb a (d x)).
    { intros x a v Ha. unfold b. rewrite (proj2 (Hdet x) a Ha). destruct (Nat.eqb a (d x)); destruct (Req_EM_T _ _); auto; lra. }
    assert (Hsum : forall (f : nat -> R) x, sumn (ev_K e) (fun a => (if Nat.eqb a (d x) then f a else 0) * ev_pb e x s a) = ev_pb e x s (d x) * f (d x)).
    { intros f x. rewrite (sumn_single _ _ (d x)); [rewrite Nat.eqb_refl; ring|apply Hdet|].
      intros a Ha Hne. rewrite (proj2 (Nat.eqb_neq _ _) Hne). ring. }
    split.
    + rewrite (expect_round e i _ (fun x a v => if b (x, a, v) then 1 else 0)) by reflexivity. rewrite Hc, Hs. unfold agree. apply expect_ext_all. intros x.
      rewrite (sumn_ext _ _ (fun a => (if Nat.eqb a (d x) then 1 else 0) * ev_pb e x s a)).
      * rewrite (Hsum (fun _ => 1)). ring.
      * intros a Ha. f_equal. rewrite (expect_ext_all _ _ (fun _ => if Nat.eqb a (d x) then 1 else 0)) by (intros; rewrite Hb; auto). apply expect_const; auto.
    + set (v := expect mu _ / agree).
      rewrite (expect_round e i _ (fun x a z => if b (x, a, z) then z - v else 0)) by reflexivity. rewrite Hc, Hs.
      rewrite (expect_ext_all _ _ (fun x => ev_pb e x s (d x) * q_true e x s (d x) - v * ev_pb e x s (d x))).
      * rewrite expect_minus, expect_scal. fold agree. unfold v. field. lra.
      * intros x. rewrite (sumn_ext _ _ (fun a => (if Nat.eqb a (d x) then q_true e x s a - v else 0) * ev_pb e x s a)).
        -- rewrite (Hsum (fun a => q_true e x s a - v)). ring.
        -- intros a Ha. f_equal. rewrite (expect_ext_all _ _ (fun z => if Nat.eqb a (d x) then z - v else 0)) by (intros; rewrite Hb; auto).
           destruct (Nat.eqb a (d x)); [rewrite expect_minus, expect_const by auto; reflexivity|apply expect_const; auto].
Qed.

(** A logging policy that picks the evaluation policy's action with the same probability in every context (for instance a
    uniformly random one) gives the policy value, up to the chance that no round agrees. *)
Theorem C138_uniform : forall X (e : benv X) qh arg mu s d c, env_ok e -> identical_rounds e mu s -> deterministic e d s ->
  (forall o, position_arg (log_of e (ev_pb e) qh o) arg) -> 0 < c -> (forall x, ev_pb e x s (d x) = c) ->
  expects (log_dist e) (fun o => let l := log_of e (ev_pb e) qh o in rm_value (rewards l) (actions l) (policy l) arg)
    (policy_value e * (1 - (1 - c) ^ ev_n e)).
Proof.
  intros X e qh arg mu s d c He Hid Hdet Harg Hc Hpb.
  assert (Hn : (0 < ev_n e)%nat) by apply He.
  assert (Hmu : is_dist mu) by (destruct (Hid 0%nat Hn) as [<- _]; apply He; auto).
  assert (A : expect mu (fun x => ev_pb e x s (d x)) = c).
  { rewrite (expect_ext_all _ _ (fun _ => c)) by auto. apply expect_const; auto. }
  pose proof (C138_expected X e qh arg mu s d He Hid Hdet Harg) as T. cbv zeta in T. rewrite A in T. specialize (T Hc).
  replace (policy_value e) with (expect mu (fun x => ev_pb e x s (d x) * q_true e x s (d x)) / c); auto.
  rewrite (expect_ext_all _ _ (fun x => c * q_true e x s (d x))) by (intros; rewrite Hpb; auto). rewrite expect_scal.
  unfold policy_value. rewrite (avg_ext _ _ (fun _ => expect mu (fun x => q_true e x s (d x)))).
  - rewrite avg_const by auto. field. lra.
  - intros i Hi. destruct (Hid i Hi) as [-> ->]. apply expect_ext_all. intros x.
    rewrite (sumn_single _ _ (d x)); [|apply Hdet|].
    + rewrite (proj2 (Hdet x) _ (proj1 (Hdet x))), Nat.eqb_refl. ring.
    + intros a Ha Hne. rewrite (proj2 (Hdet x) _ Ha), (proj2 (Nat.eqb_neq _ _) Hne). ring.
Qed.

(** Two equally likely contexts; the policy's action 0 is logged three times as often in the one where it is rewarded. *)
Definition skew_env (n : nat) (hi : R) : benv bool := {|
  ev_n := n; ev_K := 2; ev_L := 1; ev_pos := fun _ => 0%nat; ev_ctx := fun _ => [(true, 1 / 2); (false, 1 / 2)];
  ev_pb := fun x _ a => if Nat.eqb a 0 then (if x then hi else 1 / 4) else (if x then 1 - hi else 3 / 4);
  ev_pe := fun _ a _ => if Nat.eqb a 0 then 1 else 0;
  ev_rd := fun x _ a => [(if x then 1 else 0, 1)] |}.

Lemma skew_ok n hi : (0 < n)%nat -> 0 < hi < 1 -> env_ok (skew_env n hi) /\ identical_rounds (skew_env n hi) [(true, 1 / 2); (false, 1 / 2)] 0
  /\ deterministic (skew_env n hi) (fun _ => 0%nat) 0 /\ (forall qh o, position_arg (log_of (skew_env n hi) (ev_pb (skew_env n hi)) qh o) None).
Proof.
  intros Hn Hh. split; [|split; [|split]].
  - constructor; simpl; intros; try lia; auto.
    + split; [|simpl; lra]. simpl; intros a p [E|[E|[]]]; injection E as <- <-; lra.
    + destruct x; idx a; simpl; lra.
    + destruct x; simpl; lra.
    + idx a; simpl; lra.
    + lra.
    + split; [|simpl; lra]. simpl; intros b p [E|[]]; injection E as <- <-; lra.
  - intros i Hi. split; reflexivity.
  - intros x. split; [simpl; lia|]. intros a _. reflexivity.
  - intros qh o. right. simpl. auto.
Qed.

(** However many rounds are logged, a logging policy that is not uniform can leave the replay method off by a fixed amount:
    the policy value is 1/2, the expected estimate tends to 3/4. *)
Theorem C138_biased : forall n qh, (0 < n)%nat ->
  policy_value (skew_env n (3 / 4)) = 1 / 2 /\
  expects (log_dist (skew_env n (3 / 4))) (fun o => let l := log_of (skew_env n (3 / 4)) (ev_pb (skew_env n (3 / 4))) qh o in
      rm_value (rewards l) (actions l) (policy l) None) (3 / 4 * (1 - (1 / 2) ^ n)).
Proof.
  intros n qh Hn. destruct (skew_ok n (3 / 4) Hn ltac:(lra)) as (He & Hid & Hdet & Harg). split.
  - unfold policy_value. simpl. rewrite (avg_ext _ _ (fun _ => 1 / 2)); [apply avg_const; auto|].
    intros i Hi. unfold q_true. simpl. field.
  - pose proof (C138_expected _ _ qh None _ _ _ He Hid Hdet (Harg qh)) as T. cbv zeta in T.
    replace (expect _ (fun x => ev_pb _ x 0 0)) with (1 / 2) in T by (simpl; field).
    replace (expect _ (fun x => ev_pb _ x 0 0 * _)) with (3 / 8) in T by (unfold q_true; simpl; field).
    replace (3 / 4 * (1 - (1 / 2) ^ n)) with (3 / 8 / (1 / 2) * (1 - (1 - 1 / 2) ^ ev_n (skew_env n (3 / 4)))); [apply T; lra|].
    replace (1 - 1 / 2) with (1 / 2) by field. simpl ev_n. field.
Qed.

(** With the same logging probability in both contexts the estimate is the policy value 1/2 up to the chance of no match. *)
Example C138_case : forall n, (0 < n)%nat ->
  env_ok (skew_env n (1 / 4)) /\ identical_rounds (skew_env n (1 / 4)) [(true, 1 / 2); (false, 1 / 2)] 0
  /\ deterministic (skew_env n (1 / 4)) (fun _ => 0%nat) 0 /\ (forall qh o, position_arg (log_of (skew_env n (1 / 4)) (ev_pb (skew_env n (1 / 4))) qh o) None)
  /\ (forall x, ev_pb (skew_env n (1 / 4)) x 0 0 = 1 / 4) /\ 0 < expect [(true, 1 / 2); (false, 1 / 2)] (fun x => ev_pb (skew_env n (1 / 4)) x 0 0).
Proof.
  intros n Hn. destruct (skew_ok n (1 / 4) Hn ltac:(lra)) as (He & Hid & Hdet & Harg). repeat (split; auto).
  - intros []; reflexivity.
  - simpl. lra.
Qed.

Print Assumptions C138_expected.
Print Assumptions C138_uniform.
Print Assumptions C138_biased.
