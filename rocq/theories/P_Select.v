(** * P_Select: choosing among candidate policies by their estimated values (C178). *)

From Coq Require Import Reals List ZArith Bool Lia Lra.
From Verif Require Import Num NpList M_Utils M_Estimators S_Base S_Prob S_Conc S_Estimators S_Env
  L_Num L_Base L_Prob L_Estimators L_EstProps L_Unbiased L_Conc L_Conc3 S_Examples L_Examples P_Bias P_BiasBound P_Conc P_ExpCons.
Import ListNotations.
Open Scope R_scope.

(** ** Specification *)

(** The same logging environment, with [pi] as the policy to evaluate: one log serves all candidates. *)
Definition candidate {X} (e : benv X) (pi : X -> nat -> nat -> R) : benv X :=
  mkEnv (ev_n e) (ev_K e) (ev_L e) (ev_pos e) (ev_ctx e) (ev_pb e) pi (ev_rd e).

(** [pick] returns one of [m] candidates, and no candidate has a larger estimate. *)
Definition picks_largest {O} (m : nat) (est : nat -> O -> res num) (pick : O -> nat) : Prop :=
  forall o, (pick o < m)%nat /\ forall k a b, (k < m)%nat -> est (pick o) o = Ok (Fin a) -> est k o = Ok (Fin b) -> b <= a.

(** Some candidate is better than candidate [j] by [gap] or more. *)
Definition beaten (m : nat) (V : nat -> R) (gap : R) (j : nat) : bool :=
  existsb (fun k => if Rle_dec (V j + gap) (V k) then true else false) (seq 0 m).

(** ** Lemmas *)
Lemma prob_existsb {A} (d : dist A) (ev : nat -> A -> bool) b m : is_dist d -> (forall j, (j < m)%nat -> prob d (ev j) <= b) ->
  prob d (fun a => existsb (fun j => ev j a) (seq 0 m)) <= INR m * b.
Proof.
  intros Hd. induction m as [|m IH]; intros H.
  - simpl. unfold prob. rewrite (expect_const d 0 Hd). lra.
  - rewrite S_INR. eapply Rle_trans; [apply (prob_union d _ (fun a => existsb (fun j => ev j a) (seq 0 m)) (ev m)); auto|].
    + intros a p _ _ E. rewrite seq_S, existsb_app in E. apply orb_true_iff in E as [E|E]; auto. right. simpl in E. rewrite orb_false_r in E. exact E.
    + pose proof (IH ltac:(intros; apply H; lia)). pose proof (H m ltac:(lia)). lra.
Qed.

(** If each estimate misses its target by [eps] with probability at most [b], the choice loses [2 eps] with probability at most [m b]. *)
Lemma selection {A} (d : dist A) m (est : nat -> A -> res num) (V : nat -> R) eps b pick : is_dist d ->
  (forall j, (j < m)%nat -> prob d (fun o => estimate_off (est j o) (V j) eps) <= b) -> picks_largest m est pick ->
  prob d (fun o => beaten m V (2 * eps) (pick o)) <= INR m * b.
Proof.
  intros Hd H Hp. eapply Rle_trans; [|apply (prob_existsb d (fun j o => estimate_off (est j o) (V j) eps) b m Hd H)].
  unfold prob. apply expect_le_supp; auto. intros o p _ _.
  match goal with |- (if ?u then 1 else 0) <= (if ?v then 1 else 0) =>
    enough (I : u = true -> v = true) by (destruct u; [rewrite I by reflexivity; lra|destruct v; lra]) end.
  intros E. unfold beaten in E. apply existsb_exists in E as (k & Hk & E). destruct (Rle_dec _ _) as [Hle|]; [|discriminate].
  apply in_seq in Hk. destruct (Hp o) as [Hj Hmax].
  destruct (estimate_off (est (pick o) o) (V (pick o)) eps) eqn:E1; [apply existsb_exists; exists (pick o); split; [apply in_seq; lia|auto]|].
  destruct (estimate_off (est k o) (V k) eps) eqn:E2; [apply existsb_exists; exists k; split; [apply in_seq; lia|auto]|]. exfalso.
  unfold estimate_off in E1, E2.
  destruct (est (pick o) o) as [[a| | |]|] eqn:Ea; try discriminate. destruct (est k o) as [[c| | |]|] eqn:Ec; try discriminate.
  destruct (Rle_dec eps (Rabs (a - V (pick o)))) as [|N1]; [discriminate|]. destruct (Rle_dec eps (Rabs (c - V k))) as [|N2]; [discriminate|].
  pose proof (Hmax k a c ltac:(lia) eq_refl Ec). apply Rnot_le_lt in N1, N2.
  apply Rabs_def2 in N1 as [? ?]. apply Rabs_def2 in N2 as [? ?]. lra.
Qed.

(** ** C178 *)

(** [m] candidate policies with importance weights at most [W], all evaluated on one log; whichever rule picks a candidate
    with the largest estimate, the picked one is beaten by [2 eps] or more only with the probability given. *)
Theorem C178_selection_by_ipw : forall (X : Type) (e : benv X) m (pi : nat -> X -> nat -> nat -> R) qh arg W Rm eps pick,
  (forall j, (j < m)%nat -> env_ok (candidate e (pi j))) -> (0 < m)%nat -> 0 < eps -> 0 < Rm ->
  (forall j x a s, (j < m)%nat -> (a < ev_K e)%nat -> pi j x a s <= W * ev_pb e x s a) ->
  (forall x s a r p, (a < ev_K e)%nat -> In (r, p) (ev_rd e x s a) -> p <> 0 -> Rabs r <= Rm) ->
  (forall j o, (j < m)%nat -> position_arg (log_of (candidate e (pi j)) (ev_pb e) qh o) arg) ->
  picks_largest m (fun j o => let l := log_of (candidate e (pi j)) (ev_pb e) qh o in
    ipw_value PInf false (rewards l) (actions l) (policy l) (Some (pscores l)) arg None) pick ->
  prob (log_dist e) (fun o => beaten m (fun j => policy_value (candidate e (pi j))) (2 * eps) (pick o))
  <= INR m * (2 * exp (- (INR (ev_n e) * eps ^ 2 / (2 * (W * Rm) ^ 2)))).
Proof.
  intros X e m pi qh arg W Rm eps pick He Hm Heps HRm HW HR Harg Hp. 
  eapply selection; [apply (log_is_dist (candidate e (pi 0%nat))); apply He; auto| |exact Hp].
  intros j Hj. apply (C176_ipw_exponential X (candidate e (pi j)) qh arg W Rm eps); auto. intros; apply HW; auto.
Qed.

Theorem C178_selection_by_dr : forall (X : Type) (e : benv X) m (pi : nat -> X -> nat -> nat -> R) qh arg W Rm eps pick,
  (forall j, (j < m)%nat -> env_ok (candidate e (pi j))) -> (0 < m)%nat -> 0 < eps -> 0 < Rm ->
  (forall j x a s, (j < m)%nat -> (a < ev_K e)%nat -> pi j x a s <= W * ev_pb e x s a) ->
  (forall x s a r p, (a < ev_K e)%nat -> In (r, p) (ev_rd e x s a) -> p <> 0 -> Rabs r <= Rm) ->
  (forall x a s, (a < ev_K e)%nat -> Rabs (qh x a s) <= Rm) ->
  (forall j o, (j < m)%nat -> position_arg (log_of (candidate e (pi j)) (ev_pb e) qh o) arg) ->
  picks_largest m (fun j o => let l := log_of (candidate e (pi j)) (ev_pb e) qh o in
    dr_value PInf false (rewards l) (actions l) (policy l) (model l) (Some (pscores l)) arg None) pick ->
  prob (log_dist e) (fun o => beaten m (fun j => policy_value (candidate e (pi j))) (2 * eps) (pick o))
  <= INR m * (2 * exp (- (INR (ev_n e) * eps ^ 2 / (2 * ((1 + 2 * W) * Rm) ^ 2)))).
Proof.
  intros X e m pi qh arg W Rm eps pick He Hm Heps HRm HW HR HQ Harg Hp.
  eapply selection; [apply (log_is_dist (candidate e (pi 0%nat))); apply He; auto| |exact Hp].
  intros j Hj. apply (C176_dr_exponential X (candidate e (pi j)) qh arg W Rm eps); auto. intros; apply HW; auto.
Qed.

Theorem C178_selection_by_snipw : forall (X : Type) (e : benv X) m (pi : nat -> X -> nat -> nat -> R) qh arg W Rm eps pick,
  (forall j, (j < m)%nat -> env_ok (candidate e (pi j))) -> (0 < m)%nat -> 0 < eps -> 0 < Rm ->
  (forall j x a s, (j < m)%nat -> (a < ev_K e)%nat -> pi j x a s <= W * ev_pb e x s a) ->
  (forall x s a r p, (a < ev_K e)%nat -> In (r, p) (ev_rd e x s a) -> p <> 0 -> Rabs r <= Rm) ->
  (forall j o, (j < m)%nat -> position_arg (log_of (candidate e (pi j)) (ev_pb e) qh o) arg) ->
  picks_largest m (fun j o => let l := log_of (candidate e (pi j)) (ev_pb e) qh o in
    snipw_value false (rewards l) (actions l) (policy l) (Some (pscores l)) arg None) pick ->
  prob (log_dist e) (fun o => beaten m (fun j => policy_value (candidate e (pi j))) (2 * eps) (pick o))
  <= INR m * (2 * exp (- (INR (ev_n e) * eps ^ 2 / (32 * (W * Rm) ^ 2))) + 2 * exp (- (INR (ev_n e) / (2 * W ^ 2)))).
Proof.
  intros X e m pi qh arg W Rm eps pick He Hm Heps HRm HW HR Harg Hp.
  eapply selection; [apply (log_is_dist (candidate e (pi 0%nat))); apply He; auto| |exact Hp].
  intros j Hj. apply (C176_snipw_exponential X (candidate e (pi j)) qh arg W Rm eps); auto. intros; apply HW; auto.
Qed.

(** A rule that picks a largest estimate exists for every family of finite estimates: the first largest one, as [np.argmax] returns. *)
Fixpoint first_largest (m : nat) (v : nat -> R) : nat :=
  match m with 0 => 0 | S m' => let j := first_largest m' v in if Rlt_dec (v j) (v m') then m' else j end.
Lemma first_largest_ok m v : (0 < m)%nat -> (first_largest m v < m)%nat /\ forall k, (k < m)%nat -> v k <= v (first_largest m v).
Proof.
  induction m as [|m IH]; intros Hm; [lia|]. destruct m as [|m].
  - simpl. destruct (Rlt_dec (v 0%nat) (v 0%nat)); split; try lia; intros k Hk; replace k with 0%nat by lia; lra.
  - destruct (IH ltac:(lia)) as [I1 I2]. change (first_largest (S (S m)) v) with (let j := first_largest (S m) v in if Rlt_dec (v j) (v (S m)) then S m else j).
    cbv zeta. destruct (Rlt_dec _ _) as [Hlt|Hge]; (split; [lia|]); intros k Hk.
    + destruct (Nat.eq_dec k (S m)) as [->|]; [lra|]. pose proof (I2 k ltac:(lia)). lra.
    + destruct (Nat.eq_dec k (S m)) as [->|]; [lra|]. apply I2. lia.
Qed.
Definition finite_part (r : res num) : R := match r with Ok (Fin a) => a | _ => 0 end.
Lemma first_largest_picks {O} m (est : nat -> O -> res num) : (0 < m)%nat -> picks_largest m est (fun o => first_largest m (fun j => finite_part (est j o))).
Proof.
  intros Hm o. destruct (first_largest_ok m (fun j => finite_part (est j o)) Hm) as [H1 H2]. split; auto.
  intros k a b Hk Ea Eb. pose proof (H2 k Hk) as H. rewrite Eb, Ea in H. exact H.
Qed.

(** 12800 rounds of the example environment, its evaluation policy against its behaviour policy: the one with the larger IPW
    estimate is worse by 0.1 or more with probability at most 4 exp(-4). *)
Definition ex_candidates (j : nat) : bool -> nat -> nat -> R :=
  match j with 0 => ev_pe ex_env | _ => fun x a s => ev_pb ex_env x s a end.

Example C178_example : forall qh, let e := ex_env_n (128 * 100) in
  let est j o := let l := log_of (candidate e (ex_candidates j)) (ev_pb e) qh o in
    ipw_value PInf false (rewards l) (actions l) (policy l) (Some (pscores l)) None None in
  prob (log_dist e) (fun o => beaten 2 (fun j => policy_value (candidate e (ex_candidates j))) (2 * (1 / 20))
    (first_largest 2 (fun j => finite_part (est j o)))) <= 4 * exp (- 4).
Proof.
  intros qh e est.
  assert (Hok : forall j, (j < 2)%nat -> env_ok (candidate e (ex_candidates j))).
  { intros j Hj. destruct (ex_env_n_ok (128 * 100) ltac:(lia)) as [h1 h2 h3 h4 h5 h6 h7 h8]. destruct j as [|j]; [constructor; auto|].
    constructor; [exact h1|exact h2|exact h3|exact h4|exact h5|intros x a s Ha; exact (h4 x s a Ha)|intros x s; exact (h5 x s)|exact h8]. }
  eapply Rle_trans; [apply (C178_selection_by_ipw bool e 2 ex_candidates qh None 2 1 (1 / 20))|].
  - exact Hok.
  - lia.
  - lra.
  - lra.
  - intros j x a s Hj Ha. destruct j as [|j]; [apply (ex_env_n_W (128 * 100) x a s Ha)|].
    pose proof (eo_pb0 _ (ex_env_n_ok (128 * 100) ltac:(lia)) x s a Ha) as H. simpl in H |- *. lra.
  - intros x s a r p Ha Hr Hp. pose proof (ex_env_n_R (128 * 100) x s a r p Ha Hr Hp). rewrite Rabs_right; lra.
  - intros j o Hj. right. repeat split; reflexivity.
  - apply first_largest_picks. lia.
  - change (INR 2) with 2. change (ev_n e) with (128 * 100)%nat. rewrite mult_INR. rewrite !(INR_IZR_INZ _). simpl Z.of_nat.
    replace (- (128 * 100 * (1 / 20) ^ 2 / (2 * (2 * 1) ^ 2))) with (-4) by lra. lra.
Qed.

Print Assumptions C178_selection_by_ipw.
Print Assumptions C178_selection_by_dr.
Print Assumptions C178_selection_by_snipw.
