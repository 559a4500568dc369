(** * P_Learn: policies learnt by IPWLearner are nearly as good as the best of their class (C144). *)

From Coq Require Import Reals List ZArith Bool Lia Lra.
From Verif Require Import Num NpList M_Utils M_Estimators M_Offline S_Base S_Prob S_Conc S_Estimators S_Env S_Tuning S_Offline S_Examples
  L_Num L_Base L_Prob L_Estimators L_Unbiased L_Tuning L_Examples L_Conc L_Conc2 L_Conc3 P_Conc P_Offline.
Import ListNotations.
Open Scope R_scope.

(** ** Statement *)

(** The environment with the evaluation policy that plays the classifier [c s] at position [s]. *)
Definition playing {X} (e : benv X) (c : nat -> X -> nat) : benv X := {|
  ev_n := ev_n e; ev_K := ev_K e; ev_L := ev_L e; ev_pos := ev_pos e; ev_ctx := ev_ctx e; ev_pb := ev_pb e; ev_rd := ev_rd e;
  ev_pe := fun x a s => if Nat.eqb a (c s x) then 1 else 0 |}.

(** A training set with finite weights. *)
Definition finite_set (S : list (list num) * list num * list Z) : Prop := exists w, snd (fst S) = map Fin w.

(** A learner that, on the training sets of [L] positions and at every position, gets the most weight right among a class of policies. *)
Definition maximises (L : nat) (learn : list (list (list num) * list num * list Z) -> nat -> list num -> nat) (C : list (nat -> list num -> nat)) : Prop :=
  forall sets, length sets = L -> List.Forall finite_set sets -> In (learn sets) C /\
    forall q S c, nth_error sets q = Some S -> In c C ->
      nle (correct_weight (fun x => Z.of_nat (c q x)) S) (correct_weight (fun x => Z.of_nat (learn sets q x)) S) = true.

(** [IPWLearner.fit] on the log. *)
Definition fit_log (e : benv (list num)) (o : list (list num * nat * R)) : res (list (list (list num) * list num * list Z)) :=
  let l := log_of e (ev_pb e) (fun _ _ _ => 0) o in
  ipw_fit (ev_L e) (map (fun y => fst (fst y)) o) (actions l) (rewards l) (Some (pscores l)) (Some (positions l)).

(** The learnt policy falls short of [best] by more than [eps], or fitting raises. *)
Definition falls_short (e : benv (list num)) learn (best : nat -> list num -> nat) (eps : R) (o : list (list num * nat * R)) : bool :=
  match fit_log e o with
  | Ok sets => if Rlt_dec eps (policy_value (playing e best) - policy_value (playing e (learn sets))) then true else false
  | Err _ => true
  end.

(** ** Proof *)

Lemma prob_existsb {A C} (d : dist A) (ev : C -> A -> bool) l eps : is_dist d -> (forall c, In c l -> prob d (ev c) <= eps) ->
  prob d (fun a => existsb (fun c => ev c a) l) <= INR (length l) * eps.
Proof.
  intros Hd H. induction l as [|c l IH].
  - cbn. rewrite prob_impossible by auto. lra.
  - eapply Rle_trans; [apply (prob_union d _ (ev c) (fun a => existsb (fun c => ev c a) l)); auto|].
    + intros a p _ _ E. cbn [existsb] in E. apply orb_true_iff in E. auto.
    + pose proof (H c (or_introl eq_refl)). pose proof (IH ltac:(intros; apply H; right; auto)). cbn [length]. rewrite S_INR. lra.
Qed.

Lemma hoeff_tail {A} n (D : nat -> dist A) (G : nat -> option A -> R) b delta : (0 < n)%nat -> 0 < delta <= 1 ->
  (forall i, (i < n)%nat -> is_dist (D i)) -> (forall i y p, (i < n)%nat -> In (y, p) (D i) -> p <> 0 -> 0 <= G i (Some y) <= b) ->
  prob (dprod n D) (fun o => if Rlt_dec (avg n (fun i => expect (D i) (fun y => G i (Some y)))) (avg n (fun i => G i (nth_error o i)) - b * sqrt (ln (1 / delta) / (2 * INR n))) then true else false) <= delta.
Proof.
  intros Hn Hd HD HG.
  pose proof (C119_hoeffding_valid n (fun i => dmap (fun y => G i (Some y)) (D i)) b delta Hn Hd) as H.
  unfold prob in H. rewrite (expect_dprod_map n D G) in H. eapply Rle_trans; [|apply H].
  - right. unfold prob. apply expect_ext. intros o p Ho Hp. rewrite map_Fin_tab.
    rewrite hoeffding_ok; auto.
    2:{ intros i Hi. destruct (In_dprod_opt _ _ _ _ Ho Hp i Hi) as (y & q & E & I & Hq). rewrite E. eapply HG; eauto. }
    unfold bound_fails, hoeff.
    rewrite (avg_ext n (fun i => mean (dmap (fun y => G i (Some y)) (D i))) (fun i => expect (D i) (fun y => G i (Some y)))); [reflexivity|].
    intros i Hi. unfold mean. apply (expect_dmap (D i) (fun y => G i (Some y)) (fun x => x)).
  - intros i Hi. split; [apply is_dist_dmap; auto|]. intros v p Hv Hp. apply In_dmap in Hv as (y & -> & Hv). eapply HG; eauto.
Qed.

Section Learn.
  Variables (e : benv (list num)) (W Rm : R).
  Hypothesis He : env_ok e.
  Hypothesis HW : forall x s a, (a < ev_K e)%nat -> 1 <= W * ev_pb e x s a.
  Hypothesis HR : forall x s a r p, (a < ev_K e)%nat -> In (r, p) (ev_rd e x s a) -> p <> 0 -> 0 <= r <= Rm.

  Lemma playing_ok c : (forall q x, (c q x < ev_K e)%nat) -> env_ok (playing e c).
  Proof.
    intros Hc. destruct He as [H1 H2 H3 H4 H5 H6 H7 H8]. constructor; cbn [playing ev_n ev_K ev_L ev_pos ev_ctx ev_pb ev_pe ev_rd]; auto.
    - intros x a s _. destruct (Nat.eqb a (c s x)); lra.
    - intros x s. rewrite (sumn_term (ev_K e) _ (c s x)); auto; [rewrite Nat.eqb_refl; reflexivity|].
      intros j Hj Hne. rewrite (proj2 (Nat.eqb_neq _ _)) by auto. reflexivity.
  Qed.
  Lemma playing_weight c : (forall q x, (c q x < ev_K e)%nat) -> forall x a s, (a < ev_K (playing e c))%nat -> ev_pe (playing e c) x a s <= W * ev_pb (playing e c) x s a.
  Proof. intros Hc x a s Ha. cbn [playing ev_pe ev_pb]. pose proof (HW x s a Ha). destruct (Nat.eqb a (c s x)); lra. Qed.

  (** The weighted mean that the IPW estimate of [c] takes. *)
  Definition est (c : nat -> list num -> nat) (o : list (list num * nat * R)) : R := avg (ev_n e) (fun i => ipw_term (playing e c) i (nth_error o i)).

  Lemma term_range c (Hc : forall q x, (c q x < ev_K e)%nat) i y p : (i < ev_n e)%nat -> In (y, p) (round_dist e i) -> p <> 0 -> 0 <= ipw_term (playing e c) i (Some y) <= W * Rm.
  Proof.
    intros Hi Hy Hp. apply (term_within (playing e c) (playing_ok c Hc) W Rm (playing_weight c Hc) HR i Hi _ p); auto.
    unfold dmap. apply in_map_iff. exists (y, p). auto.
  Qed.
  Lemma est_mean c (Hc : forall q x, (c q x < ev_K e)%nat) :
    avg (ev_n e) (fun i => expect (round_dist e i) (fun y => ipw_term (playing e c) i (Some y))) = policy_value (playing e c).
  Proof. apply (ipw_mean (playing e c) (playing_ok c Hc) W (playing_weight c Hc)). Qed.

  Lemma fit_ok o p : In (o, p) (log_dist e) -> p <> 0 -> exists sets, fit_log e o = Ok sets /\ length sets = ev_L e /\ List.Forall finite_set sets /\
    forall c c' : nat -> list num -> nat,
      (forall q S, nth_error sets q = Some S -> nle (correct_weight (fun x => Z.of_nat (c' q x)) S) (correct_weight (fun x => Z.of_nat (c q x)) S) = true) ->
      est c' o <= est c o.
  Proof.
    intros Ho Hp. destruct (In_dprod _ _ _ _ Ho Hp) as [Hl _].
    set (X := fun i => match nth_error o i with Some (x, _, _) => x | None => [] end).
    set (l := log_of e (ev_pb e) (fun _ _ _ => 0) o).
    assert (EX : map (fun y => fst (fst y)) o = tab (ev_n e) X).
    { rewrite <- Hl. unfold X. clear. unfold tab. induction o as [|[[x a] r] o IH]; [reflexivity|]. cbn [map length seq]. f_equal. rewrite IH, <- seq_shift, map_map. reflexivity. }
    pose proof (accepted_log e He (ev_pb e) (fun _ _ _ => 0) o p ltac:(auto) Ho Hp) as A. fold l in A.
    assert (H : forall i, (i < ev_n e)%nat -> 0 <= lg_r l i /\ 0 < lg_p l i /\ (ev_pos e i < ev_L e)%nat).
    { intros i Hi. split; [|split; [apply A; auto|apply He; auto]]. cbn [l log_of lg_r].
      destruct (In_dprod_opt _ _ _ _ Ho Hp i Hi) as ([[x a] r] & q & E & I & Hq). rewrite E.
      unfold round_dist in I. destruct (L_Unbiased.In_round e He i x a r q I Hq) as [Ha _].
      apply In_dbind in I as (x' & p1 & p2 & Hx & I & ->). apply In_dbind in I as (a' & p3 & p4 & Ha' & I & ->).
      apply In_dmap in I as (r' & E' & Hr). injection E' as <- <- <-.
      apply (HR x (ev_pos e i) a r p4 Ha Hr). intros Z. apply Hq. rewrite Z. ring. }
    assert (HL : (1 <= ev_L e)%nat) by (pose proof (eo_pos e He 0%nat (eo_n e He)); lia).
    pose proof (C99_training_sets (ev_n e) (ev_L e) X (lg_a l) (lg_r l) (lg_p l) (ev_pos e) (Some (tabZ (ev_n e) (ev_pos e))) (eo_n e He) HL H (or_introl eq_refl)) as F.
    eexists. split; [unfold fit_log; rewrite EX; exact F|]. split; [apply tab_length|]. split.
    - apply Forall_forall. intros S HS. apply In_tab in HS as (q & Hq & <-). exists (map (fun i => lg_r l i / lg_p l i) (rounds_at (ev_n e) (ev_pos e) q)). cbn [fst snd]. rewrite map_map. reflexivity.
    - intros c c' Hle.
      assert (G : forall g, est g o = / INR (ev_n e) * sumn (ev_L e) (fun q => sumn (ev_n e) (fun i => if Nat.eqb (ev_pos e i) q then (if Nat.eqb (g q (X i)) (lg_a l i) then lg_r l i / lg_p l i else 0) else 0))).
      { intros g. unfold est, avg. unfold Rdiv at 1. rewrite Rmult_comm. f_equal. rewrite sumn_swap. apply sumn_ext. intros i Hi.
        rewrite (sumn_term (ev_L e) _ (ev_pos e i)); [|apply He; auto|intros j Hj Hne; rewrite (proj2 (Nat.eqb_neq _ _)) by auto; reflexivity].
        rewrite Nat.eqb_refl. unfold ipw_term, wgt, X, l. cbn [playing ev_pe ev_pb ev_pos log_of lg_a lg_r lg_p].
        destruct (nth_error o i) as [[[x a] r]|]; [|destruct (Nat.eqb _ _); unfold Rdiv; ring].
        rewrite (Nat.eqb_sym a). destruct (Nat.eqb _ _); unfold Rdiv; ring. }
      rewrite !G. apply Rmult_le_compat_l; [left; apply Rinv_0_lt_compat, lt_0_INR, He|]. apply sumn_le. intros q Hq.
      specialize (Hle q _ (nth_error_tab _ _ _ Hq)). rewrite !correct_weight_ok in Hle. cbn [nle] in Hle. apply Rleb_true in Hle. exact Hle.
  Qed.
End Learn.

(** With rewards in [0, Rm] and propensities of at least 1/W, the policy learnt on [n] rounds loses at most
    2 W Rm sqrt (ln ((|C|+1)/delta) / (2 n)) against any policy of the class, with probability at least 1 - delta. *)
Theorem C144_learning_guarantee : forall e learn (C : list (nat -> list num -> nat)) best W Rm delta,
  env_ok e -> 0 < delta <= 1 ->
  (forall x s a, (a < ev_K e)%nat -> 1 <= W * ev_pb e x s a) ->
  (forall x s a r p, (a < ev_K e)%nat -> In (r, p) (ev_rd e x s a) -> p <> 0 -> 0 <= r <= Rm) ->
  (forall c q x, In c C -> (c q x < ev_K e)%nat) -> maximises (ev_L e) learn C -> In best C ->
  prob (log_dist e) (falls_short e learn best (2 * (W * Rm * sqrt (ln ((INR (length C) + 1) / delta) / (2 * INR (ev_n e)))))) <= delta.
Proof.
  intros e learn C best W Rm delta He Hd HW HR HC Hlearn Hbest.
  set (N := INR (length C) + 1). assert (HN : 1 <= N) by (unfold N; pose proof (pos_INR (length C)); lra).
  set (d' := delta / N).
  assert (Hd' : 0 < d' <= 1).
  { unfold d'. split; [apply Rdiv_lt_0_compat; lra|]. apply (Rmult_le_reg_r N); [lra|]. unfold Rdiv. rewrite Rmult_assoc, Rinv_l; lra. }
  replace (N / delta) with (1 / d') by (unfold d'; field; lra).
  set (t := W * Rm * sqrt (ln (1 / d') / (2 * INR (ev_n e)))).
  assert (HD : is_dist (log_dist e)) by (apply is_dist_dprod; intros; apply is_dist_round; auto).
  assert (Up : forall c, In c C -> prob (log_dist e) (fun o => if Rlt_dec (policy_value (playing e c)) (est e c o - t) then true else false) <= d').
  { intros c Hc. assert (Hc' : forall q x, (c q x < ev_K e)%nat) by (intros; apply HC; auto). rewrite <- (est_mean e W He HW c Hc').
    apply (hoeff_tail (ev_n e) (round_dist e) (ipw_term (playing e c)) (W * Rm) d' (eo_n e He) Hd').
    - intros; apply is_dist_round; auto.
    - intros i y p Hi Hy Hp. apply (term_range e W Rm He HW HR c Hc' i y p); auto. }
  assert (Down : prob (log_dist e) (fun o => if Rlt_dec t (policy_value (playing e best) - est e best o) then true else false) <= d').
  { assert (Hc' : forall q x, (best q x < ev_K e)%nat) by (intros; apply HC; auto).
    eapply Rle_trans; [|apply (hoeff_tail (ev_n e) (round_dist e) (fun i y => W * Rm - ipw_term (playing e best) i y) (W * Rm) d' (eo_n e He) Hd')].
    - right. apply expect_ext_all. intros o. fold t.
      rewrite (avg_ext (ev_n e) (fun i => expect (round_dist e i) (fun y => W * Rm - ipw_term (playing e best) i (Some y))) (fun i => W * Rm - expect (round_dist e i) (fun y => ipw_term (playing e best) i (Some y)))).
      2:{ intros i Hi. rewrite expect_minus, expect_const by (apply is_dist_round; auto). reflexivity. }
      rewrite !avg_minus, (avg_const (ev_n e) (W * Rm) (eo_n e He)), (est_mean e W He HW best Hc'). fold (est e best o).
      destruct (Rlt_dec _ _), (Rlt_dec _ _); lra.
    - intros; apply is_dist_round; auto.
    - intros i y p Hi Hy Hp. pose proof (term_range e W Rm He HW HR best Hc' i y p Hi Hy Hp). lra. }
  eapply Rle_trans; [apply (prob_union (log_dist e) _ (fun o => existsb (fun c => if Rlt_dec (policy_value (playing e c)) (est e c o - t) then true else false) C)
    (fun o => if Rlt_dec t (policy_value (playing e best) - est e best o) then true else false)); auto|].
  - intros o p Ho Hp. destruct (fit_ok e Rm He HR o p Ho Hp) as (sets & Ef & Hlen & Hfin & Hle). unfold falls_short. rewrite Ef.
    destruct (Hlearn sets Hlen Hfin) as [Hin Hmax]. destruct (Rlt_dec (2 * t) _) as [Hlt|]; [|discriminate]. intros _.
    pose proof (Hle (learn sets) best ltac:(intros q S Hq; apply Hmax; auto)) as Hge.
    destruct (Rlt_dec t (policy_value (playing e best) - est e best o)) as [|Hn]; [right; reflexivity|]. left.
    apply existsb_exists. exists (learn sets). split; [auto|]. destruct (Rlt_dec _ _) as [|Hn']; [reflexivity|]. exfalso. lra.
  - pose proof (prob_existsb (log_dist e) (fun c o => if Rlt_dec (policy_value (playing e c)) (est e c o - t) then true else false) C d' HD Up) as HU.
    replace delta with (INR (length C) * d' + d'); [lra|]. unfold d', N. field. unfold N in HN. lra.
Qed.

(** Choosing between the two constant policies of one position is such a learner; the guarantee
    applies to it on uniform logs of two actions. *)
Definition two_constants : list (nat -> list num -> nat) := [fun _ _ => 0%nat; fun _ _ => 1%nat].
Definition better_constant (sets : list (list (list num) * list num * list Z)) : nat -> list num -> nat :=
  match sets with
  | T :: _ => if nle (correct_weight (fun _ => 1%Z) T) (correct_weight (fun _ => 0%Z) T) then (fun _ _ => 0%nat) else (fun _ _ => 1%nat)
  | [] => fun _ _ => 0%nat
  end.

Lemma finite_weight h S : finite_set S -> exists v, correct_weight h S = Fin v.
Proof.
  destruct S as [[X w] y]. intros (u & E). cbn in E. subst w. unfold correct_weight. revert u y.
  induction X as [|x X IH]; intros [|u us] [|z y]; cbn [map combine fold_right]; try (exists 0; reflexivity).
  destruct (IH us y) as (v & ->). cbn [fst snd]. destruct (Z.eqb (h x) z); cbn [nadd]; eexists; reflexivity.
Qed.

Lemma better_constant_ok : maximises 1 better_constant two_constants.
Proof.
  intros sets Hl HF. destruct sets as [|T [|? ?]]; try discriminate. inversion HF as [|? ? HS _]; subst.
  destruct (finite_weight (fun _ => 0%Z) T HS) as (v0 & E0), (finite_weight (fun _ => 1%Z) T HS) as (v1 & E1). unfold better_constant, two_constants. rewrite E0, E1. cbn [nle].
  destruct (Rleb v1 v0) eqn:Hv; (split; [cbn; auto|]); intros [|q] S' c Hq Hc; try (destruct q; discriminate); injection Hq as <-;
    destruct Hc as [<-|[<-|[]]]; change (Z.of_nat 0) with 0%Z; change (Z.of_nat 1) with 1%Z; rewrite ?E0, ?E1; cbn [nle]; try (apply Rleb_true; lra); auto.
  apply Rleb_true. apply Rleb_false in Hv. lra.
Qed.

Definition coin_env (n : nat) : benv (list num) := {|
  ev_n := n; ev_K := 2; ev_L := 1; ev_pos := fun _ => 0%nat; ev_ctx := fun _ => [([], 1)];
  ev_pb := fun _ _ _ => 1 / 2; ev_pe := fun _ a _ => if Nat.eqb a 1 then 1 else 0; ev_rd := fun _ _ a => [(INR a, 1)] |}.

Example C144_case : forall n delta best, (0 < n)%nat -> 0 < delta <= 1 -> In best two_constants ->
  prob (log_dist (coin_env n)) (falls_short (coin_env n) better_constant best (2 * (2 * 1 * sqrt (ln ((INR 2 + 1) / delta) / (2 * INR n))))) <= delta.
Proof.
  intros n delta best Hn Hd Hb.
  apply (C144_learning_guarantee (coin_env n) better_constant two_constants best 2 1 delta); auto.
  - assert (D : forall A (a : A), is_dist [(a, 1)]) by (intros A a; split; [intros b p [[= <- <-]|[]]; lra|cbn; lra]).
    constructor; cbn [coin_env ev_n ev_K ev_L ev_pos ev_ctx ev_pb ev_pe ev_rd]; auto; intros; try (cbn; lra); try lra. destruct (Nat.eqb a 1); lra.
  - intros x s a _. cbn. lra.
  - intros x s a r p Ha [[= <- <-]|[]] _. cbn in Ha. destruct a as [|[|a]]; cbn; lra || lia.
  - intros c q x [<-|[<-|[]]]; cbn; lia.
  - apply better_constant_ok.
Qed.

Print Assumptions C144_learning_guarantee.
