(** * P_Slope: the oracle inequality of SLOPE tuning (C131). *)

From Coq Require Import Reals List ZArith Lia Lra Sorting.Sorted Permutation.
From Verif Require Import Num NpList M_Utils M_Estimators M_Tuning S_Base S_Estimators S_Tuning L_Num L_Base L_Tuning S_Examples L_Examples P_Tuning.
Import ListNotations.
Open Scope R_scope.

Lemma sqrt6 : sqrt 6 * sqrt 6 = 6 /\ 2 < sqrt 6 < 3.
Proof.
  split; [apply sqrt_sqrt; lra|]. split.
  - replace 2 with (sqrt (2 * 2)) by (apply sqrt_square; lra). apply sqrt_lt_1; lra.
  - replace 3 with (sqrt (3 * 3)) by (apply sqrt_square; lra). apply sqrt_lt_1; lra.
Qed.

Lemma ordpairs_last {A} (R : A -> A -> Prop) pre x : ForallOrdPairs R (pre ++ [x]) -> forall j, In j pre -> R j x.
Proof.
  induction pre as [|y pre IH]; intros H j Hj; [easy|]. inversion H as [|? ? H1 H2]; subst. destruct Hj as [->|Hj]; [|apply IH; auto].
  rewrite Forall_forall in H1. apply H1. apply in_app_iff. right; left; auto.
Qed.
Lemma sorted_split {A} (R : A -> A -> Prop) l1 x l2 : StronglySorted R (l1 ++ x :: l2) ->
  (forall j, In j l1 -> R j x) /\ (forall j, In j l2 -> R x j) /\ (forall i j, In i l1 -> In j l2 -> R i j).
Proof.
  induction l1 as [|y l1 IH]; cbn [app]; intros H; inversion H as [|? ? H1 H2]; subst; rewrite Forall_forall in H2.
  - split; [easy|]. split; [auto|easy].
  - destruct (IH H1) as (I1 & I2 & I3). split; [|split; [auto|]].
    + intros j [<-|Hj]; auto. apply H2, in_app_iff. right; left; auto.
    + intros i j [<-|Hi] Hj; auto. apply H2, in_app_iff. right; right; auto.
Qed.

(** Candidates with estimates [theta], widths [c] and bias bounds [B] that grow as the widths shrink: if every interval is
    valid for [V], the candidate SLOPE picks is within a factor sqrt 6 + 3 of the best trade-off of bias and width. *)
Theorem C131_oracle {A} (theta c B : A -> R) (V : R) visit lam :
  StronglySorted (fun a b => c b <= c a) visit -> slope_choice theta c visit lam ->
  (forall a, In a visit -> 0 <= c a /\ 0 <= B a /\ Rabs (theta a - V) <= B a + c a) ->
  (forall a b, In a visit -> In b visit -> c b <= c a -> B a <= B b) ->
  forall best, In best visit -> Rabs (theta lam - V) <= (sqrt 6 + 3) * (B best + c best).
Proof.
  intros HS (pre & post & -> & HO & Hpost) Hv HB best Hbest. destruct sqrt6 as (H6 & H6a & H6b).
  destruct (sorted_split _ _ _ _ HS) as (S1 & S2 & S3).
  assert (Hlam : In lam (pre ++ lam :: post)) by (apply in_app_iff; right; left; auto).
  destruct (Hv lam Hlam) as (C1 & B1 & V1). destruct (Hv best Hbest) as (C2 & B2 & V2).
  assert (M0 : 0 <= sqrt 6 * (B best + c best)) by (apply Rmult_le_pos; lra).
  apply in_app_iff in Hbest as [Hb|[<-|Hb]].
  - (* visited before the choice: compatible with it *)
    pose proof (ordpairs_last _ _ _ HO best Hb) as Hok. unfold slope_ok in Hok. specialize (S1 best Hb).
    assert (Rabs (theta lam - V) <= Rabs (theta best - theta lam) + Rabs (theta best - V)).
    { replace (theta lam - V) with (- (theta best - theta lam) + (theta best - V)) by ring.
      eapply Rle_trans; [apply Rabs_triang|]. rewrite Rabs_Ropp. lra. }
    assert (0 <= sqrt 6 * B best) by (apply Rmult_le_pos; lra). lra.
  - lra.
  - (* not visited: the next candidate was incompatible with an accepted one *)
    destruct post as [|next post]; [easy|]. destruct Hpost as (j & Hj & Hno).
    assert (Hnext : In next (pre ++ lam :: next :: post)) by (apply in_app_iff; right; right; left; auto).
    assert (Hjin : In j (pre ++ lam :: next :: post)) by (apply in_app_iff in Hj as [Hj|[<-|[]]]; apply in_app_iff; [left|right; left]; auto).
    destruct (Hv next Hnext) as (C3 & B3 & V3). destruct (Hv j Hjin) as (C4 & B4 & V4).
    assert (Hbin : In best (pre ++ lam :: next :: post)) by (apply in_app_iff; right; right; auto).
    assert (L1 : c lam <= c j) by (apply in_app_iff in Hj as [Hj|[<-|[]]]; [apply S1; auto|lra]).
    assert (L2 : c next <= c j) by (apply in_app_iff in Hj as [Hj|[<-|[]]]; [apply S3; [auto|left; auto]|apply S2; left; auto]).
    assert (L3 : c best <= c next).
    { assert (T : StronglySorted (fun a b => c b <= c a) ((pre ++ [lam]) ++ next :: post)) by (rewrite <- app_assoc; exact HS).
      destruct (sorted_split _ _ _ _ T) as (_ & T2 & _). destruct Hb as [<-|Hb]; [lra|apply T2; auto]. }
    assert (L4 : c best <= c lam) by (apply S2; auto).
    pose proof (HB j next Hjin Hnext L2). pose proof (HB next best Hnext Hbin L3). pose proof (HB lam best Hlam Hbin L4).
    unfold slope_ok in Hno. apply Rnot_le_lt in Hno.
    assert (Rabs (theta j - theta next) <= Rabs (theta j - V) + Rabs (theta next - V)).
    { replace (theta j - theta next) with ((theta j - V) + - (theta next - V)) by ring.
      eapply Rle_trans; [apply Rabs_triang|]. rewrite Rabs_Ropp. lra. }
    assert (K : (sqrt 6 - 2) * c j < 2 * B next) by lra.
    assert (K' : (sqrt 6 + 2) * ((sqrt 6 - 2) * c j) <= (sqrt 6 + 2) * (2 * B next)) by (apply Rmult_le_compat_l; lra).
    replace ((sqrt 6 + 2) * ((sqrt 6 - 2) * c j)) with ((sqrt 6 * sqrt 6 - 4) * c j) in K' by ring. rewrite H6 in K'.
    assert (N1 : c j <= (sqrt 6 + 2) * B next) by lra.
    assert (N2 : (sqrt 6 + 2) * B next <= (sqrt 6 + 2) * B best) by (apply Rmult_le_compat_l; lra).
    assert (0 <= sqrt 6 * c best) by (apply Rmult_le_pos; lra). lra.
Qed.

(** The tuned estimators with [tuning_method="slope"]: whenever every Student-t interval is valid up to the bias, the value
    they report is within the same factor of the best candidate. *)
Theorem C131_tuned : forall argsort ppf t lams bound delta use_est o l ps arg eps T V B,
  make_tuner t (map lam_num lams) Slope bound delta use_est = Ok o ->
  (forall lam, In lam lams -> regular (kind_modifier t) lam) -> supports t use_est ->
  accepted l -> is_policy l -> position_arg l arg -> pscore_arg l use_est ps eps ->
  (1 < lg_n l)%nat -> ppf (lg_n l - 1)%nat (1 - delta) = Fin T -> 0 <= T ->
  (forall xs, is_argsort xs (argsort xs)) ->
  let theta lam := avg (lg_n l) (contribution (uses_model t) (kind_modifier t) lam l) in
  let width := spec_width (uses_model t) (kind_modifier t) T l in
  (forall a, In a lams -> 0 <= B a /\ Rabs (theta a - V) <= B a + width a) ->
  (forall a b, In a lams -> In b lams -> width b <= width a -> B a <= B b) ->
  exists v, snd (tuner_value argsort ppf o (tuning_call l ps arg eps)) = Ok (Fin v) /\
    forall best, In best lams -> Rabs (v - V) <= (sqrt 6 + 3) * (B best + width best).
Proof.
  intros argsort ppf t lams bound delta ue o l ps arg eps T V B Ho Hr Hs Hacc Hp Ha Hps Hn HT HT0 Hsort theta width Hv HB.
  destruct (C31_slope argsort ppf t lams bound delta ue o l ps arg eps T Ho Hr Hs Hacc Hp Ha Hps Hn HT Hsort) as (visit & lam & o' & HP & HS & Hc & E & _).
  exists (theta lam). rewrite E. split; [reflexivity|]. intros best Hb.
  assert (Hin : forall a, In a visit <-> In a lams) by (intros a; split; apply Permutation_in; [|symmetry]; auto).
  apply (C131_oracle theta width B V visit lam HS Hc).
  - intros a Hina. apply Hin in Hina. destruct (Hv a Hina). split; [|auto]. unfold width, spec_width. apply Rmult_le_pos; auto. apply sqrt_pos.
  - intros a b Hina Hinb. apply HB; apply Hin; auto.
  - apply Hin; auto.
Qed.

(** Three candidates with shrinking widths and growing biases around the value 0, of which the last one is refused. *)
Example C131_oracle_case : let theta := fun x : nat => nth x [1; 0; 30] 0 in let c := fun x : nat => nth x [3; 2; 1] 0 in
  let B := fun x : nat => nth x [0; 1; 29] 0 in
  StronglySorted (fun a b => c b <= c a) [0; 1; 2]%nat /\ slope_choice theta c [0; 1; 2]%nat 1%nat /\
  (forall a, In a [0; 1; 2]%nat -> 0 <= c a /\ 0 <= B a /\ Rabs (theta a - 0) <= B a + c a) /\
  (forall a b, In a [0; 1; 2]%nat -> In b [0; 1; 2]%nat -> c b <= c a -> B a <= B b).
Proof.
  intros theta c B. destruct sqrt6 as (_ & H1 & H2). split; [|split; [|split]].
  - repeat constructor; unfold c; cbn; lra.
  - exists [0%nat], [2%nat]. split; [reflexivity|]. split.
    + constructor; [|repeat constructor]. constructor; [|constructor]. unfold slope_ok, theta, c. cbn. rewrite Rabs_right; lra.
    + exists 1%nat. split; [right; left; auto|]. unfold slope_ok, theta, c. cbn. rewrite Rabs_left; lra.
  - intros a [<-|[<-|[<-|[]]]]; unfold theta, c, B; cbn; (split; [lra|split; [lra|]]); rewrite Rabs_right; lra.
  - intros a b [<-|[<-|[<-|[]]]] [<-|[<-|[<-|[]]]]; unfold c, B; cbn; lra.
Qed.

(** The hypotheses of [C131_tuned] on a log of two rounds. *)
Example C131_tuned_case : exists argsort o V B,
  make_tuner T_IPW (map lam_num [Some 1; Some 10]) Slope false (1/20) false = Ok o /\
  exists v, snd (tuner_value argsort (fun _ _ => Fin 1) o (tuning_call ex_t2 (Some (pscores ex_t2)) None None)) = Ok (Fin v) /\
    forall best, In best [Some 1; Some 10] -> Rabs (v - V) <= (sqrt 6 + 3) * (B best + spec_width false Clipping 1 ex_t2 best).
Proof.
  destruct C31_example as ((argsort & Hsort) & _).
  set (theta := fun lam => avg (lg_n ex_t2) (contribution false Clipping lam ex_t2)).
  set (M := Rabs (theta (Some 1)) + Rabs (theta (Some 10))).
  exists argsort, (mkTuner T_IPW (nsort (order T_IPW) (map lam_num [Some 1; Some 10])) Slope false (1/20) false None), 0, (fun _ => M).
  assert (Ho : make_tuner T_IPW (map lam_num [Some 1; Some 10]) Slope false (1 / 20) false = Ok (mkTuner T_IPW (nsort (order T_IPW) (map lam_num [Some 1; Some 10])) Slope false (1/20) false None)).
  { destruct ex_tuner as (o & E). pose proof (make_tuner_inv _ _ _ _ _ _ _ E) as (-> & _). unfold make_tuner in *.
    destruct (check_lambdas _ _) as [[]|]; cbn [bind] in *; [|discriminate].
    destruct (check_scalar _ _ _) as [[]|]; cbn [bind] in *; [|discriminate]. reflexivity. }
  split; [exact Ho|].
  apply (C131_tuned argsort (fun _ _ => Fin 1) T_IPW [Some 1; Some 10] false (1/20) false _ ex_t2 (Some (pscores ex_t2)) None None 1 0 (fun _ => M)); auto.
  - simpl; auto.
  - exact I.
  - apply ex_t2_accepted.
  - apply ex_t2_policy.
  - right; simpl; auto.
  - reflexivity.
  - apply Rle_0_1.
  - fold theta. intros a Ha. pose proof (Rabs_pos (theta (Some 1))). pose proof (Rabs_pos (theta (Some 10))).
    assert (0 <= spec_width false Clipping 1 ex_t2 a) by (unfold spec_width; apply Rmult_le_pos; [apply sqrt_pos|lra]).
    split; [unfold M; lra|]. change (Rabs (theta a - 0) <= M + spec_width false Clipping 1 ex_t2 a). rewrite Rminus_0_r.
    destruct Ha as [<-|[<-|[]]]; unfold M; lra.
  - intros; lra.
Qed.

Print Assumptions C131_oracle.
Print Assumptions C131_tuned.
