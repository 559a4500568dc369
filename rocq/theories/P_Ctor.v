(** * P_Ctor: which Python arguments the constructors of policies, models, datasets and environments accept (C145-C147). *)

From Coq Require Import String Reals List ZArith Bool Lia Lra.
From Verif Require Import Num NpList M_Utils M_Init M_Policy M_Linear M_Logistic M_Reg M_SlateData M_Ctor S_Base S_Init S_Ctor
  L_Num L_Init L_Ctor P_RegInit.
Import ListNotations.
Open Scope R_scope.

(** ** C145: online policies *)

Lemma range_checks na ll : check_scalar_v na is_int (Some (Fin 2)) None = Ok tt /\ check_scalar_v ll is_int (Some (Fin 1)) (Some (num_of na)) = Ok tt
  <-> int_ge 2 na (int_of na) /\ int_range 1 (int_of na) ll (int_of ll).
Proof.
  rewrite (int_ge_iff 2). split; intros [H1 H2]; (split; [exact H1|]); pose proof (integer_num na _ (proj1 H1)) as E; rewrite E in *;
    apply (int_range_iff 1 (int_of na) ll); auto.
Qed.

Lemma online_checks na ll bs sd :
  check_scalar_v na is_int (Some (Fin 2)) None = Ok tt /\ check_scalar_v ll is_int (Some (Fin 1)) (Some (num_of na)) = Ok tt /\
  check_scalar_v bs is_int (Some (Fin 1)) None = Ok tt /\ random_state_ok sd = Ok tt <->
  online_args na ll bs sd (int_of na) (int_of ll) (int_of bs).
Proof.
  rewrite (int_ge_iff 1 bs), random_state_iff. split.
  - intros (H1 & H2 & H3 & H4). destruct (proj1 (range_checks na ll) (conj H1 H2)). constructor; auto.
  - intros [H1 H2 H3 H4]. destruct (proj2 (range_checks na ll) (conj H1 H2)). auto.
Qed.

Lemma online_values na ll bs sd K L B : online_args na ll bs sd K L B -> int_of na = K /\ int_of ll = L /\ int_of bs = B.
Proof. intros [H1 H2 H3 _]. split; [eapply int_ge_fun; eauto|]. split; [eapply int_range_fun; eauto|eapply int_ge_fun; eauto]. Qed.

Lemma check_Z_ok x lo hi : (lo <= x <= hi)%Z -> check_scalar_Z x (Some lo) (Some hi) = Ok tt.
Proof. intros H. unfold check_scalar_Z. destruct (Z.ltb_spec x lo), (Z.ltb_spec hi x); try lia. reflexivity. Qed.
Lemma check_Z_min x lo : (lo <= x)%Z -> check_scalar_Z x (Some lo) None = Ok tt.
Proof. intros H. unfold check_scalar_Z. destruct (Z.ltb_spec x lo); try lia. reflexivity. Qed.

Lemma cf_iff na ll bs sd p : cf_ctor na ll bs sd = Ok p <-> exists K L B, online_args na ll bs sd K L B /\ p = new_context_free K L B.
Proof.
  unfold cf_ctor. rewrite !seq_ok. pose proof (online_checks na ll bs sd) as OC.
  assert (E : online_args na ll bs sd (int_of na) (int_of ll) (int_of bs) ->
    cf_post_init (int_of na) (int_of ll) (int_of bs) = Ok (new_context_free (int_of na) (int_of ll) (int_of bs))).
  { intros [[_ H1] [_ H2] [_ H3] _]. unfold cf_post_init. rewrite check_Z_min, check_Z_ok, check_Z_min by lia. reflexivity. }
  split.
  - intros (H1 & H2 & H3 & H4 & Hp). assert (H : online_args na ll bs sd (int_of na) (int_of ll) (int_of bs)) by (apply OC; auto).
    exists (int_of na), (int_of ll), (int_of bs). split; auto. rewrite E in Hp by auto. congruence.
  - intros (K & L & B & H & ->). destruct (online_values _ _ _ _ _ _ _ H) as (<- & <- & <-). destruct (proj2 OC H) as (? & ? & ? & ?). auto 6.
Qed.

(** EpsilonGreedy and Random: built exactly from a float in [0, 1] (or NaN), at least two actions, lists no longer than
    that, batches of at least one and anything sklearn takes as a generator; a new policy has seen nothing. *)
Theorem C145_egreedy : forall epsilon na ll bs sd p, eg_ctor epsilon na ll bs sd = Ok p <->
  exploration false epsilon /\ exists K L B, online_args na ll bs sd K L B /\ p = new_context_free K L B.
Proof. intros. unfold eg_ctor. rewrite seq_ok, (exploration_iff false), cf_iff. tauto. Qed.

(** BernoulliTS: the parameters of the prior are the given ones or ones; with a true [is_zozotown_prior] they are those
    of the campaign, whatever else was given. *)
Theorem C145_bts : forall prior alpha beta zozo campaign na ll bs sd r, bts_ctor prior alpha beta zozo campaign na ll bs sd = Ok r <->
  exists K L B a b, online_args na ll bs sd K L B /\ r = (new_context_free K L B, a, b) /\
    ((falsy zozo /\ a = match alpha with Some x => x | None => repeat (Fin 1) (Z.to_nat K) end /\
                    b = match beta with Some x => x | None => repeat (Fin 1) (Z.to_nat K) end) \/
     (~ falsy zozo /\ exists c, campaign = VStr c /\ prior c = Some (a, b))).
Proof.
  intros. unfold bts_ctor. rewrite bind_ok. setoid_rewrite <- (truthy_iff zozo). split.
  - intros (p & Hp & Hr). apply cf_iff in Hp as (K & L & B & H & ->). destruct (truthy zozo).
    + destruct campaign; try discriminate. destruct (prior s) as [[a b]|] eqn:E; [|discriminate]. injection Hr as <-.
      exists K, L, B, a, b. split; auto. split; auto. right. split; [discriminate|]. eauto.
    + injection Hr as <-. exists K, L, B. eexists. eexists. split; [auto|]. split; [reflexivity|]. left. auto.
  - intros (K & L & B & a & b & H & -> & D). exists (new_context_free K L B). split; [apply cf_iff; eauto 6|].
    destruct D as [(-> & -> & ->)|(Ht & c & -> & E)]; [reflexivity|]. destruct (truthy zozo); [|congruence]. rewrite E. reflexivity.
Qed.

Lemma contextual_iff dim na ll bs sd : contextual_ctor dim na ll bs sd = Ok tt <->
  int_ge 1 dim (int_of dim) /\ online_args na ll bs sd (int_of na) (int_of ll) (int_of bs).
Proof. unfold contextual_ctor. rewrite !seq_ok, (int_ge_iff 1 dim), <- online_checks. tauto. Qed.

Lemma contextual_checks_ok d K L B : (1 <= d)%Z -> (2 <= K)%Z -> (1 <= L <= K)%Z -> (1 <= B)%Z -> contextual_checks d K L B = Ok tt.
Proof. intros. unfold contextual_checks. rewrite !check_Z_min, check_Z_ok by lia. reflexivity. Qed.

Lemma identity_eq d : np_identity d = identity d.
Proof.
  unfold np_identity, identity, tab2F, tabF, tab. reflexivity.
Qed.

Lemma lin_iff dim na ll bs sd p : lin_ctor dim na ll bs sd = Ok p <->
  exists D K L B, int_ge 1 dim D /\ online_args na ll bs sd K L B /\ p = new_linear D K L B.
Proof.
  unfold lin_ctor. rewrite seq_ok, contextual_iff.
  assert (E : forall D K L B, (1 <= D)%Z -> online_args na ll bs sd K L B -> lin_post_init D K L B = Ok (new_linear D K L B)).
  { intros D K L B HD [[_ H1] [_ H2] [_ H3] _]. unfold lin_post_init. rewrite contextual_checks_ok by lia. cbn [bind].
    rewrite identity_eq. reflexivity. }
  split.
  - intros [[Hd H] Hp]. rewrite E in Hp by (auto; apply Hd). injection Hp as <-. exists (int_of dim), (int_of na), (int_of ll), (int_of bs). auto.
  - intros (D & K & L & B & Hd & H & ->). rewrite (int_ge_fun _ _ _ Hd). destruct (online_values _ _ _ _ _ _ _ H) as (-> & -> & ->).
    split; [auto|]. apply E; auto. apply Hd.
Qed.

(** LinTS, and LinEpsilonGreedy and LinUCB. *)
Theorem C145_lin_ts : forall dim na ll bs sd p, lin_ctor dim na ll bs sd = Ok p <->
  exists D K L B, int_ge 1 dim D /\ online_args na ll bs sd K L B /\ p = new_linear D K L B.
Proof. intros. apply lin_iff. Qed.
Theorem C145_lin_epsilon : forall ucb epsilon dim na ll bs sd p, lin_eps_ctor ucb epsilon dim na ll bs sd = Ok p <->
  exploration ucb epsilon /\ exists D K L B, int_ge 1 dim D /\ online_args na ll bs sd K L B /\ p = new_linear D K L B.
Proof. intros. unfold lin_eps_ctor. rewrite seq_ok, exploration_iff, lin_iff. tauto. Qed.

Lemma sign_one : inf_sign 1 = PInf.
Proof. unfold inf_sign, Rltb, Reqb. repeat (destruct (Rlt_dec _ _) || destruct (Req_EM_T _ _)); auto; lra. Qed.
Lemma mul_one x : nmul x (Fin 1) = x.
Proof. destruct x as [r| | |]; cbn [nmul]; rewrite ?sign_one; auto. f_equal. ring. Qed.
Lemma one_mul x : nmul (Fin 1) x = x.
Proof. destruct x as [r| | |]; cbn [nmul]; rewrite ?sign_one; auto. f_equal. ring. Qed.

Lemma log_iff alpha lambda dim na ll bs sd p : log_ctor alpha lambda dim na ll bs sd = Ok p <->
  exists D K L B a l, int_ge 1 dim D /\ online_args na ll bs sd K L B /\ positive_float alpha a /\ positive_float lambda l /\
    p = new_logistic D K L B a l.
Proof.
  unfold log_ctor. rewrite !seq_ok, contextual_iff, !raise_ok.
  assert (E : forall D K L B a l, (1 <= D)%Z -> online_args na ll bs sd K L B -> or_nan (above 0) a -> or_nan (above 0) l ->
    log_post_init a l D K L B = Ok (new_logistic D K L B a l)).
  { intros D K L B a l HD [[_ H1] [_ H2] [_ H3] _] Ha Hl. unfold log_post_init. rewrite contextual_checks_ok by lia. cbn [bind].
    rewrite (proj2 (above_iff a 0) Ha), (proj2 (above_iff l 0) Hl). cbn [raise_if bind]. unfold mblr_post_init, new_logistic.
    rewrite !mul_one. do 4 f_equal. generalize (Z.to_nat D). intros d. induction d; cbn [repeat map]; [auto|]. rewrite one_mul.
    congruence. }
  split.
  - intros ([Hd H] & A1 & A2 & L1 & L2 & Hp).
    pose proof (proj1 (positive_iff _) (conj A1 A2)) as PA. pose proof (proj1 (positive_iff _) (conj L1 L2)) as PL.
    rewrite E in Hp by (auto; apply Hd || apply PA || apply PL). injection Hp as <-.
    exists (int_of dim), (int_of na), (int_of ll), (int_of bs), (num_of alpha), (num_of lambda). auto.
  - intros (D & K & L & B & a & l & Hd & H & PA & PL & ->). rewrite (int_ge_fun _ _ _ Hd). destruct (online_values _ _ _ _ _ _ _ H) as (-> & -> & ->).
    destruct PA as [-> PA], PL as [-> PL]. split; [auto|]. split; [reflexivity|]. split; [apply above_iff; auto|]. split; [reflexivity|].
    split; [apply above_iff; auto|]. apply E; auto. apply Hd.
Qed.

(** LogisticTS, and LogisticEpsilonGreedy and LogisticUCB. *)
Theorem C145_log_ts : forall alpha lambda dim na ll bs sd p, log_ctor alpha lambda dim na ll bs sd = Ok p <->
  exists D K L B a l, int_ge 1 dim D /\ online_args na ll bs sd K L B /\ positive_float alpha a /\ positive_float lambda l /\
    p = new_logistic D K L B a l.
Proof. intros. apply log_iff. Qed.
Theorem C145_log_epsilon : forall ucb epsilon alpha lambda dim na ll bs sd p, log_eps_ctor ucb epsilon alpha lambda dim na ll bs sd = Ok p <->
  exploration ucb epsilon /\ exists D K L B a l, int_ge 1 dim D /\ online_args na ll bs sd K L B /\ positive_float alpha a /\ positive_float lambda l /\
    p = new_logistic D K L B a l.
Proof. intros. unfold log_eps_ctor. rewrite seq_ok, exploration_iff, log_iff. tauto. Qed.

Lemma refused_cf na ll bs sd : refused (cf_ctor na ll bs sd).
Proof. unfold cf_ctor, cf_post_init. refuse. Qed.
Lemma refused_contextual dim na ll bs sd : refused (contextual_ctor dim na ll bs sd).
Proof. unfold contextual_ctor. refuse. Qed.
Lemma refused_checks d K L B : refused (contextual_checks d K L B).
Proof. unfold contextual_checks. refuse. Qed.
#[local] Hint Resolve refused_cf refused_contextual refused_checks : refuse.

(** Rejections are TypeErrors or ValueErrors; only BernoulliTS raises others: a plain Exception for a missing campaign,
    a KeyError for an unknown one. *)
Theorem C145_errors : forall ucb epsilon alpha lambda dim na ll bs sd e,
  eg_ctor epsilon na ll bs sd = Err e \/ lin_ctor dim na ll bs sd = Err e \/ lin_eps_ctor ucb epsilon dim na ll bs sd = Err e \/
  log_ctor alpha lambda dim na ll bs sd = Err e \/ log_eps_ctor ucb epsilon alpha lambda dim na ll bs sd = Err e ->
  e = TypeError \/ e = ValueError.
Proof.
  intros ucb epsilon alpha lambda dim na ll bs sd e H.
  assert (R1 : refused (eg_ctor epsilon na ll bs sd)) by (unfold eg_ctor; refuse).
  assert (R2 : refused (lin_ctor dim na ll bs sd)) by (unfold lin_ctor, lin_post_init; refuse).
  assert (R3 : refused (lin_eps_ctor ucb epsilon dim na ll bs sd)) by (unfold lin_eps_ctor; refuse).
  assert (R4 : refused (log_ctor alpha lambda dim na ll bs sd)) by (unfold log_ctor, log_post_init; refuse).
  assert (R5 : refused (log_eps_ctor ucb epsilon alpha lambda dim na ll bs sd)) by (unfold log_eps_ctor; refuse).
  destruct H as [H|[H|[H|[H|H]]]]; eauto.
Qed.
Theorem C145_bts_errors : forall prior alpha beta zozo campaign na ll bs sd e,
  bts_ctor prior alpha beta zozo campaign na ll bs sd = Err e ->
  ((e = TypeError \/ e = ValueError) \/ (e = PlainException /\ campaign = VNone) \/ (e = KeyError /\ campaign <> VNone)) /\
  (falsy zozo -> e = TypeError \/ e = ValueError).
Proof.
  intros prior alpha beta zozo campaign na ll bs sd e. unfold bts_ctor. rewrite <- truthy_iff.
  destruct (cf_ctor na ll bs sd) as [p|e'] eqn:E; cbn [bind].
  - destruct (truthy zozo); [|discriminate]. destruct campaign; try (intros H; injection H as <-; split; [|discriminate];
      solve [right; left; auto | right; right; split; [reflexivity|discriminate] | auto]).
    + destruct (prior s); [discriminate|]. intros H; injection H as <-. split; [|discriminate]. right; right; split; [reflexivity|discriminate].
    + intros H. destruct (hashable (VTuple l)); injection H as <-; (split; [|discriminate]); [right; right; split; [reflexivity|discriminate]|auto].
  - intros H. injection H as <-. pose proof (refused_cf na ll bs sd e' E). auto.
Qed.

(** With valid sizes and a true [is_zozotown_prior]: a missing campaign is a plain Exception, an unknown one a KeyError. *)
Theorem C145_bts_campaign : forall prior alpha beta zozo na ll bs sd K L B, online_args na ll bs sd K L B -> ~ falsy zozo ->
  bts_ctor prior alpha beta zozo VNone na ll bs sd = Err PlainException /\
  (forall name, prior name = None -> bts_ctor prior alpha beta zozo (VStr name) na ll bs sd = Err KeyError) /\
  (forall z, bts_ctor prior alpha beta zozo (VInt z) na ll bs sd = Err KeyError) /\
  (forall l, bts_ctor prior alpha beta zozo (VList l) na ll bs sd = Err TypeError) /\
  (forall d, bts_ctor prior alpha beta zozo (VDict d) na ll bs sd = Err TypeError) /\
  (forall l, In (VList []) l -> bts_ctor prior alpha beta zozo (VTuple l) na ll bs sd = Err TypeError) /\
  (forall names, bts_ctor prior alpha beta zozo (VTuple (map VStr names)) na ll bs sd = Err KeyError).
Proof.
  intros prior alpha beta zozo na ll bs sd K L B H Hz. unfold bts_ctor. rewrite <- truthy_iff in Hz.
  assert (E : cf_ctor na ll bs sd = Ok (new_context_free K L B)) by (apply cf_iff; eauto 6). rewrite E. cbn [bind].
  destruct (truthy zozo); [|congruence]. split; [reflexivity|]. split; [intros name ->; reflexivity|]. split; [reflexivity|]. split; [reflexivity|]. split; [reflexivity|]. split.
  - intros l Hl. f_equal. replace (hashable (VTuple l)) with false; [reflexivity|]. symmetry. cbn [hashable]. induction l as [|x l IH]; [destruct Hl|]. destruct Hl as [->|Hl]; [reflexivity|]. rewrite IH by auto. apply andb_false_r.
  - intros names. f_equal. replace (hashable (VTuple (map VStr names))) with true; [reflexivity|]. symmetry. cbn [hashable]. induction names as [|x l IH]; [reflexivity|]. cbn [map hashable andb]. exact IH.
Qed.

(** A constructor argument of each kind. *)
Example C145_cases :
  eg_ctor (VFloat (Fin (1/2))) (VInt 3) (VBool true) (VInt 1) VNone = Ok (new_context_free 3 1 1) /\
  eg_ctor (VInt 1) (VInt 3) (VInt 1) (VInt 1) VNone = Err TypeError /\
  eg_ctor (VFloat NaN) (VInt 2) (VInt 2) (VInt 5) VRandomState = Ok (new_context_free 2 2 5) /\
  lin_eps_ctor true (VFloat (Fin 7)) (VInt 4) (VInt 3) (VInt 1) (VInt 1) (VInt 12345) = Ok (new_linear 4 3 1 1) /\
  log_ctor (VInt 1) (VFloat (Fin 1)) (VInt 4) (VInt 3) (VInt 1) (VInt 1) (VInt 12345) = Err TypeError /\
  bts_ctor (fun c => if String.eqb c "men" then Some ([Fin 4], [Fin 5]) else None) None None (VInt 1) (VStr "men") (VInt 2) (VInt 1) (VInt 1) VNone
    = Ok (new_context_free 2 1 1, [Fin 4], [Fin 5]).
Proof.
  assert (A : online_args (VInt 3) (VInt 1) (VInt 1) (VInt 12345) 3 1 1).
  { constructor; [split; [constructor|lia]|split; [constructor|lia]|split; [constructor|lia]|]. right; right. exists 12345%Z. split; [left; constructor|lia]. }
  split; [|split; [|split; [|split; [|split]]]].
  - apply C145_egreedy. split; [exists (Fin (1/2)); split; auto; right; exists (1/2); split; auto; lra|]. exists 3%Z, 1%Z, 1%Z. split; auto.
    constructor; [split; [constructor|lia]|split; [apply (integer_bool true)|lia]|split; [constructor|lia]|left; auto].
  - reflexivity.
  - apply C145_egreedy. split; [exists NaN; split; auto; left; auto|]. exists 2%Z, 2%Z, 5%Z. split; auto.
    constructor; [split; [constructor|lia]|split; [constructor|lia]|split; [constructor|lia]|right; left; auto].
  - apply C145_lin_epsilon. split; [exists (Fin 7); split; auto; right; right; exists 7; split; auto; lra|]. exists 4%Z, 3%Z, 1%Z, 1%Z. split; auto. split; [constructor|lia].
  - unfold log_ctor. rewrite (proj2 (contextual_iff _ _ _ _ _)); [reflexivity|]. split; [split; [constructor|cbn; lia]|exact A].
  - apply C145_bts. exists 2%Z, 1%Z, 1%Z, [Fin 4], [Fin 5]. split.
    + constructor; [split; [constructor|lia]|split; [constructor|lia]|split; [constructor|lia]|left; auto].
    + split; auto. right. split; [intros F; repeat (destruct F as [F|F]; [discriminate|]); destruct F|]. exists "men"%string. auto.
Qed.

(** ** C146: reward models and learners *)

Lemma fitting_iff v : negb (in_strs ["normal"; "iw"; "mrdr"]%string v) = false <->
  v = VStr (fitting_name (if is_str "normal" v then Normal else if is_str "iw" v then Iw else Mrdr)).
Proof.
  rewrite in_strs_iff. unfold one_of. split.
  - intros (s & [<-|[<-|[<-|[]]]] & ->); reflexivity.
  - intros E. rewrite E. destruct (if is_str "normal" v then Normal else if is_str "iw" v then Iw else Mrdr); eexists; (split; [|reflexivity]); simpl; auto.
Qed.

(** RegressionModel: one copy of the base model per position. *)
Theorem C146_regression : forall m na ll ac fm r, reg_ctor m na ll ac fm = Ok r <->
  exists K L f, int_ge 2 na K /\ int_ge 1 ll L /\ fm = VStr (fitting_name f) /\ estimator m /\
    r = (mkReg (Z.to_nat K) (Z.to_nat L) (match ac with Some x => x | None => identity (Z.to_nat K) end) f, repeat m (Z.to_nat L)).
Proof.
  intros m na ll ac fm r. unfold reg_ctor. rewrite !seq_ok, (int_ge_iff 2), (int_ge_iff 1), !raise_ok, fitting_iff, estimator_iff, bind_ok. split.
  - intros (H1 & H2 & H3 & H4 & ms & Hm & Hr). exists (int_of na), (int_of ll). eexists. split; [auto|]. split; [auto|]. split; [exact H3|]. split; [auto|].
    destruct H4 as (c & ->). apply copies with (m := MEstimator c) in Hm; [|reflexivity]. subst ms.
    rewrite (proj1 (C55_constructor _ _ _ _)) in Hr by (split; [apply H1|apply H2]). injection Hr as <-. reflexivity.
  - intros (K & L & f & H1 & H2 & -> & H4 & ->). pose proof (int_ge_fun _ _ _ H1) as E1. pose proof (int_ge_fun _ _ _ H2) as E2. rewrite E1, E2.
    split; [auto|]. split; [auto|]. split; [destruct f; reflexivity|]. split; [auto|]. exists (repeat m (Z.to_nat L)).
    split; [destruct H4 as (c & ->); apply copies with (m := MEstimator c); reflexivity|].
    rewrite (proj1 (C55_constructor _ _ _ _)) by (split; [apply H1|apply H2]). cbn [bind]. destruct f; reflexivity.
Qed.

(** SlateRegressionModel: regressors only, two fitting methods. *)
Theorem C146_slate_regression : forall m ll na fm r, slate_reg_ctor m ll na fm = Ok r <->
  exists K L (weighted : bool), int_ge 2 na K /\ int_ge 1 ll L /\ fm = VStr (if weighted then "iw" else "normal") /\ m = MEstimator false /\
    r = (K, L, weighted, repeat m (Z.to_nat L)).
Proof.
  intros m ll na fm r. unfold slate_reg_ctor. rewrite !seq_ok, (int_ge_iff 2), (int_ge_iff 1), !raise_ok, estimator_iff, bind_ok, in_strs_iff. split.
  - intros (H1 & H2 & H3 & (c & ->) & H5 & ms & Hm & Hr). simpl in H5. subst c. apply copies with (m := MEstimator false) in Hm; [|reflexivity]. subst ms.
    injection Hr as <-. exists (int_of na), (int_of ll), (is_str "iw" fm). split; [auto|]. split; [auto|]. split; [|auto].
    destruct H3 as (s & [<-|[<-|[]]] & ->); reflexivity.
  - intros (K & L & w & H1 & H2 & -> & -> & ->). pose proof (int_ge_fun _ _ _ H1) as E1. pose proof (int_ge_fun _ _ _ H2) as E2. rewrite E1, E2.
    split; [auto|]. split; [auto|]. split; [destruct w; eexists; (split; [|reflexivity]); simpl; auto|]. split; [exists false; auto|]. split; [reflexivity|].
    eexists. split; [apply copies with (m := MEstimator false); reflexivity|]. destruct w; reflexivity.
Qed.

Lemma calibrated_ok cv m : estimator m -> calibrated_clone cv m = Ok (Z.ltb 1 (int_of cv), m).
Proof. intros (c & ->). reflexivity. Qed.

(** ImportanceWeightEstimator and PropensityScoreEstimator: the copies are calibrated exactly when [calibration_cv] is
    above one. *)
Theorem C146_importance_weights : forall m na ll ac fm cv r, iw_ctor m na ll ac fm cv = Ok r <->
  exists K L f c, int_ge 2 na K /\ int_ge 1 ll L /\ integer cv c /\ fm = VStr (iw_name f) /\ estimator m /\
    r = (mkIw (Z.to_nat K) (Z.to_nat L) (match f, ac with Sample, Some x => x | _, _ => identity (Z.to_nat K) end) f,
         repeat (Z.ltb 1 c, m) (Z.to_nat L)).
Proof.
  intros m na ll ac fm cv r. unfold iw_ctor. rewrite !seq_ok, (int_ge_iff 2), (int_ge_iff 1), int_any_iff, !raise_ok, estimator_iff, bind_ok, in_strs_iff. split.
  - intros (H1 & H2 & Hc & H3 & H4 & ms & Hm & Hr). apply copies with (m := (Z.ltb 1 (int_of cv), m)) in Hm; [|apply calibrated_ok; auto]. subst ms.
    rewrite (proj1 (C102_constructor _ _ _ _)) in Hr by (split; [apply H1|apply H2]). injection Hr as <-.
    exists (int_of na), (int_of ll), (if is_str "sample" fm then Sample else Raw), (int_of cv). split; [auto|]. split; [auto|]. split; [auto|].
    split; [|auto]. destruct H3 as (s & [<-|[<-|[]]] & ->); reflexivity.
  - intros (K & L & f & c & H1 & H2 & Hc & -> & H4 & ->). pose proof (int_ge_fun _ _ _ H1) as E1. pose proof (int_ge_fun _ _ _ H2) as E2.
    pose proof (integer_int_of _ _ Hc) as E3. rewrite E1, E2, E3.
    split; [auto|]. split; [auto|]. split; [auto|]. split; [destruct f; eexists; (split; [|reflexivity]); simpl; auto|]. split; [auto|].
    eexists. split; [apply copies with (m := (Z.ltb 1 (int_of cv), m)); [apply calibrated_ok; auto|reflexivity]|].
    rewrite (proj1 (C102_constructor _ _ _ _)) by (split; [apply H1|apply H2]). cbn [bind]. rewrite E3. destruct f; reflexivity.
Qed.
Theorem C146_propensities : forall m na ll cv r, ps_ctor m na ll cv = Ok r <->
  exists K L c, int_ge 2 na K /\ int_ge 1 ll L /\ integer cv c /\ estimator m /\ r = (K, L, repeat (Z.ltb 1 c, m) (Z.to_nat L)).
Proof.
  intros m na ll cv r. unfold ps_ctor. rewrite !seq_ok, (int_ge_iff 2), (int_ge_iff 1), int_any_iff, !raise_ok, estimator_iff, bind_ok. split.
  - intros (H1 & H2 & Hc & H4 & ms & Hm & Hr). apply copies with (m := (Z.ltb 1 (int_of cv), m)) in Hm; [|apply calibrated_ok; auto]. subst ms.
    injection Hr as <-. exists (int_of na), (int_of ll), (int_of cv). auto.
  - intros (K & L & c & H1 & H2 & Hc & H4 & ->). pose proof (int_ge_fun _ _ _ H1) as E1. pose proof (int_ge_fun _ _ _ H2) as E2.
    pose proof (integer_int_of _ _ Hc) as E3. rewrite E1, E2, E3. split; [auto|]. split; [auto|]. split; [auto|]. split; [auto|].
    eexists. split; [apply copies with (m := (Z.ltb 1 (int_of cv), m)); [apply calibrated_ok; auto|reflexivity]|]. rewrite E3. reflexivity.
Qed.

Lemma learner_iff na ll : learner_ctor na ll = Ok tt <-> int_ge 2 na (int_of na) /\ int_range 1 (int_of na) ll (int_of ll).
Proof. unfold learner_ctor. rewrite seq_ok. apply range_checks. Qed.

(** IPWLearner: any copyable classifier, or LogisticRegression when none is given. *)
Theorem C146_ipw_learner : forall na ll m r, ipw_learner_ctor na ll m = Ok r <->
  exists K L, int_ge 2 na K /\ int_range 1 K ll L /\
    ((m = MNone /\ r = (K, L, repeat (MEstimator true) (Z.to_nat L))) \/ (classifier m /\ copyable m /\ r = (K, L, repeat m (Z.to_nat L)))).
Proof.
  intros na ll m r. unfold ipw_learner_ctor. rewrite seq_ok, learner_iff.
  assert (HL : forall K L, int_range 1 K ll L -> exists n, Z.to_nat L = S n).
  { intros K L [_ H]. exists (Z.to_nat (L - 1)). lia. }
  split.
  - intros ([H1 H2] & H). exists (int_of na), (int_of ll). split; [auto|]. split; [auto|]. destruct m as [c|c p|].
    + right. rewrite bind_ok in H. destruct H as (m' & Hm & H). rewrite seq_ok, raise_ok, classifier_iff in Hm. destruct Hm as [Hc E]. injection E as <-.
      rewrite bind_ok in H. destruct H as (ms & Hms & E). injection E as <-. apply copies with (m := MEstimator c) in Hms; [|reflexivity]. subst.
      split; [auto|]. split; [left; exists c; auto|reflexivity].
    + right. rewrite bind_ok in H. destruct H as (m' & Hm & H). rewrite seq_ok, raise_ok, classifier_iff in Hm. destruct Hm as [Hc E]. injection E as <-.
      rewrite bind_ok in H. destruct H as (ms & Hms & E). injection E as <-. destruct p.
      * apply copies with (m := MDuck c true) in Hms; [|reflexivity]. subst. split; [auto|]. split; [right; exists c; auto|reflexivity].
      * destruct (HL _ _ H2) as (n & En). rewrite En in Hms. discriminate.
    + left. split; [auto|]. cbn [bind] in H. rewrite bind_ok in H. destruct H as (ms & Hms & E). injection E as <-.
      apply copies with (m := MEstimator true) in Hms; [|reflexivity]. subst. reflexivity.
  - intros (K & L & H1 & H2 & D). pose proof (int_ge_fun _ _ _ H1) as E1. pose proof (int_range_fun _ _ _ _ H2) as E2. rewrite E1, E2. split; [auto|].
    destruct D as [[-> ->]|(Hc & Hcp & ->)].
    + cbn [bind]. rewrite (proj2 (copies _ (MEstimator true) _ _ eq_refl) eq_refl). reflexivity.
    + assert (E : match m with MNone => Ok (MEstimator true) | m0 => raise_if (negb (is_classifier m0)) ValueError ;;; Ok m0 end = Ok m).
      { apply classifier_iff in Hc. destruct m; [| |discriminate]; rewrite Hc; reflexivity. }
      rewrite E. cbn [bind]. rewrite (proj2 (copies (clone m) m _ _ (proj2 (clone_iff m m) (conj Hcp eq_refl))) eq_refl). reflexivity.
Qed.

(** QLearner: the reward model must be given, although its default is None; 'mrdr' is accepted too. *)
Theorem C146_q_learner : forall na ll m fm r, q_learner_ctor na ll m fm = Ok r <->
  exists K L f, int_ge 2 na K /\ int_range 1 K ll L /\ fm = VStr (fitting_name f) /\ estimator m /\
    r = (mkReg (Z.to_nat K) (Z.to_nat L) (identity (Z.to_nat K)) f, repeat m (Z.to_nat L)).
Proof.
  intros na ll m fm r. unfold q_learner_ctor. rewrite seq_ok, learner_iff, C146_regression. split.
  - intros ([H1 H2] & K & L & f & H3 & H4 & H5 & H6 & H7). pose proof (int_ge_fun _ _ _ H3) as E1. pose proof (int_ge_fun _ _ _ H4) as E2.
    rewrite E1, E2 in *. exists K, L, f. auto.
  - intros (K & L & f & H3 & H4 & H5 & H6 & H7). pose proof (int_ge_fun _ _ _ H3) as E1. pose proof (int_range_fun _ _ _ _ H4) as E2.
    rewrite E1, E2. split; [auto|]. exists K, L, f. split; [auto|]. split; [apply int_range_ge in H4; tauto|]. auto.
Qed.

Lemma refused_calibrated cv m : refused (calibrated_clone cv m).
Proof. unfold calibrated_clone. refuse. Qed.
Lemma refused_reg m na ll ac fm : refused (reg_ctor m na ll ac fm).
Proof. unfold reg_ctor, reg_init. refuse. Qed.
Lemma refused_learner na ll : refused (learner_ctor na ll).
Proof. unfold learner_ctor. refuse. Qed.
#[local] Hint Resolve refused_calibrated refused_reg refused_learner : refuse.

(** The marginalized estimators: at least two actions, a positive number of dimensions to keep, a confidence level in
    [0, 1] (or NaN), a classifier, and "exact", "greedy" or nothing. *)
Theorem C146_marginalized : forall na m method dims delta, mipw_ctor na m method dims delta = Ok tt <->
  (exists z, int_ge 2 na z) /\ (exists z, int_ge 1 dims z) /\ float_in (or_nan (between 0 1)) delta /\
  (method = VNone \/ one_of ["exact"; "greedy"]%string method) /\ classifier m.
Proof.
  intros. unfold mipw_ctor. rewrite !seq_ok, !raise_ok, (exploration_iff false). unfold exploration.
  rewrite (int_ge_iff 2 na), (int_ge_iff 1 dims), classifier_iff.
  assert (H : forall lo v, int_ge lo v (int_of v) <-> exists z, int_ge lo v z).
  { intros lo v. split; [eauto|]. intros (z & Hz). rewrite (int_ge_fun _ _ _ Hz). exact Hz. }
  rewrite !H. assert (E : match method with VNone => false | m => negb (in_strs ["exact"; "greedy"]%string m) end = false <->
    method = VNone \/ one_of ["exact"; "greedy"]%string method).
  { rewrite <- in_strs_iff. destruct method; intuition (try discriminate; auto). }
  rewrite E. reflexivity.
Qed.
Example C146_marginalized_cases :
  mipw_ctor (VInt 2) (MEstimator true) (VStr "greedy") (VBool true) (VFloat (Fin (1 / 20))) = Ok tt /\
  forall m d, mipw_ctor (VFloat (Fin 2)) m VNone (VInt 1) d = Err TypeError.
Proof.
  split; [|reflexivity]. apply C146_marginalized. split; [exists 2%Z; split; [constructor|lia]|]. split; [exists 1%Z; split; [constructor|lia]|].
  split; [eexists; split; [reflexivity|]; right; eexists; split; [reflexivity|lra]|]. split; [|left; reflexivity]. right. eexists. split; [|reflexivity]. simpl. auto.
Qed.
(** Its failures are TypeErrors and ValueErrors. *)
Theorem C146_marginalized_errors : forall na m method dims delta e, mipw_ctor na m method dims delta = Err e -> e = TypeError \/ e = ValueError.
Proof.
  intros na m method dims delta e H. assert (R : refused (mipw_ctor na m method dims delta)) by (unfold mipw_ctor; refuse). eauto.
Qed.

Theorem C146_errors : forall m na ll ac fm cv e,
  reg_ctor m na ll ac fm = Err e \/ slate_reg_ctor m ll na fm = Err e \/ iw_ctor m na ll ac fm cv = Err e \/ ps_ctor m na ll cv = Err e \/
  ipw_learner_ctor na ll m = Err e \/ q_learner_ctor na ll m fm = Err e -> e = TypeError \/ e = ValueError.
Proof.
  intros m na ll ac fm cv e H.
  assert (R2 : refused (slate_reg_ctor m ll na fm)) by (unfold slate_reg_ctor; refuse).
  assert (R3 : refused (iw_ctor m na ll ac fm cv)) by (unfold iw_ctor, iw_init; refuse).
  assert (R4 : refused (ps_ctor m na ll cv)) by (unfold ps_ctor; refuse).
  assert (R5 : refused (ipw_learner_ctor na ll m)).
  { unfold ipw_learner_ctor. apply refused_bind; [refuse|intros ? _]. apply refused_bind; [destruct m; refuse|intros ? _]. refuse. }
  assert (R6 : refused (q_learner_ctor na ll m fm)) by (unfold q_learner_ctor; refuse).
  destruct H as [H|[H|[H|[H|[H|H]]]]]; eauto. eapply refused_reg; eauto.
Qed.

Example C146_cases :
  q_learner_ctor (VInt 2) (VInt 1) MNone (VStr "normal") = Err ValueError /\
  q_learner_ctor (VInt 2) (VInt 1) (MEstimator true) (VStr "mrdr") = Ok (mkReg 2 1 (identity 2) Mrdr, [MEstimator true]) /\
  ipw_learner_ctor (VInt 3) (VInt 2) MNone = Ok (3%Z, 2%Z, [MEstimator true; MEstimator true]) /\
  ipw_learner_ctor (VInt 3) (VInt 2) (MDuck true false) = Err TypeError /\
  ps_ctor (MEstimator true) (VInt 3) (VInt 1) (VInt (-4)) = Ok (3%Z, 1%Z, [(false, MEstimator true)]) /\
  slate_reg_ctor (MEstimator true) (VInt 2) (VInt 3) (VStr "iw") = Err ValueError.
Proof.
  assert (T2 : int_ge 2 (VInt 2) 2) by (split; [constructor|lia]). assert (T3 : int_ge 2 (VInt 3) 3) by (split; [constructor|lia]).
  assert (C2 : learner_ctor (VInt 2) (VInt 1) = Ok tt) by (apply learner_iff; cbn; split; [auto|split; [constructor|lia]]).
  assert (C3 : learner_ctor (VInt 3) (VInt 2) = Ok tt) by (apply learner_iff; cbn; split; [auto|split; [constructor|lia]]).
  assert (K2 : check_scalar_v (VInt 2) is_int (Some (Fin 2)) None = Ok tt) by (apply (int_ge_iff 2); auto).
  assert (K3 : check_scalar_v (VInt 3) is_int (Some (Fin 2)) None = Ok tt) by (apply (int_ge_iff 2); auto).
  assert (L1 : check_scalar_v (VInt 1) is_int (Some (Fin 1)) None = Ok tt) by (apply (int_ge_iff 1); split; [constructor|cbn; lia]).
  assert (L2 : check_scalar_v (VInt 2) is_int (Some (Fin 1)) None = Ok tt) by (apply (int_ge_iff 1); split; [constructor|cbn; lia]).
  split; [|split; [|split; [|split; [|split]]]].
  - unfold q_learner_ctor, reg_ctor. rewrite C2, K2, L1. reflexivity.
  - apply C146_q_learner. exists 2%Z, 1%Z, Mrdr. split; [auto|]. split; [split; [constructor|lia]|]. split; [auto|]. split; [exists true; auto|reflexivity].
  - apply C146_ipw_learner. exists 3%Z, 2%Z. split; [auto|]. split; [split; [constructor|lia]|]. left. auto.
  - unfold ipw_learner_ctor. rewrite C3. reflexivity.
  - apply C146_propensities. exists 3%Z, 1%Z, (-4)%Z. split; [auto|]. split; [split; [constructor|lia]|]. split; [constructor|]. split; [exists true; auto|reflexivity].
  - unfold slate_reg_ctor. rewrite K3, L2. reflexivity.
Qed.

(** ** C147: datasets and environments *)

Lemma synth_iff na dim rt std beta df ac sd c : synth_ctor na dim rt std beta df ac sd = Ok c <->
  synth_accepts na dim rt std df ac sd c /\ number beta (sc_beta c).
Proof.
  unfold synth_ctor. rewrite !seq_ok, (int_ge_iff 2), (int_ge_iff 1), number_any_iff, (int_range_iff 0), random_given_iff, bind_ok. split.
  - intros (H1 & H2 & H3 & H4 & H5 & b & H6 & H). rewrite !seq_ok, number_ge_iff, features_iff in H. destruct H as (H7 & H8 & E). injection E as <-.
    apply reward_type_iff in H6. split; [constructor; auto|auto].
  - intros ([H1 H2 H3 H4 H5 H6 H7] & H8). destruct c as [K d b x y f]. cbn [sc_actions sc_dim sc_binary sc_std sc_beta sc_deficient] in *.
    pose proof (int_ge_fun _ _ _ H1) as E1. pose proof (int_ge_fun _ _ _ H2) as E2. pose proof (int_range_fun _ _ _ _ H3) as E3.
    pose proof (number_num _ _ (proj1 H6)) as E4. pose proof (number_num _ _ H8) as E5. rewrite E1, E2, E3, E5.
    split; [auto|]. split; [auto|]. split; [auto|]. split; [auto|]. split; [auto|]. exists b. split; [apply reward_type_iff; auto|].
    rewrite !seq_ok, number_ge_iff, features_iff, E4. auto.
Qed.

(** SyntheticBanditDataset: also infinite and NaN reward_std and beta. *)
Theorem C147_synthetic : forall na dim rt std beta df ac sd c, synth_ctor na dim rt std beta df ac sd = Ok c <->
  synth_accepts na dim rt std df ac sd c /\ number beta (sc_beta c).
Proof. intros. apply synth_iff. Qed.

Lemma number_list_iff v mn (P : num -> Prop) xs :
  (forall u, check_scalar_v u is_number mn None = Ok tt <-> number u (num_of u) /\ P (num_of u)) ->
  number_list v mn = Ok xs <-> exists l, v = VList l /\ Forall2 (fun u x => number u x /\ P x) l xs.
Proof.
  intros HP. unfold number_list.
  assert (G : forall l xs, mapM (fun x => check_scalar_v x is_number mn None ;;; Ok (num_of x)) l = Ok xs <-> Forall2 (fun u x => number u x /\ P x) l xs).
  { induction l as [|u l IH]; intros ys; cbn [mapM].
    - split; [intros E; injection E as <-; constructor|intros H; inversion H; reflexivity].
    - rewrite bind_ok. split.
      + intros (x & Hx & H). rewrite seq_ok, HP in Hx. destruct Hx as [Hx E]. injection E as <-. rewrite bind_ok in H. destruct H as (ys' & Hy & E).
        injection E as <-. constructor; [auto|apply IH; auto].
      + intros H. inversion H as [|? x ? ys' [Hx Px] Hy]; subst. exists x. split.
        * rewrite seq_ok, HP. rewrite (number_num _ _ Hx). auto.
        * rewrite bind_ok. exists ys'. split; [apply IH; auto|reflexivity]. }
  destruct v; try (split; [discriminate|intros (l' & E & _); discriminate]). rewrite G. split.
  - intros H. eauto.
  - intros (l' & E & H). injection E as ->. auto.
Qed.

(** SyntheticMultiLoggersBanditDataset: one number per logger and as many non-negative ones for the shares, which are
    divided by their sum. *)
Theorem C147_multi : forall na dim rt std betas rhos df ac sd c bs ps,
  multi_ctor na dim rt std betas rhos df ac sd = Ok (c, bs, ps) <->
  synth_accepts na dim rt std df ac sd c /\ sc_beta c = Fin 1 /\
  exists vb vr rs, betas = VList vb /\ Forall2 number vb bs /\
    rhos = VList vr /\ Forall2 (fun v x => number v x /\ or_nan (at_least 0) x) vr rs /\ length bs = length rs /\
    ps = map (fun r => ndiv r (nsum rs)) rs.
Proof.
  intros na dim rt std betas rhos df ac sd c bs ps. unfold multi_ctor.
  assert (NB : forall xs, number_list betas None = Ok xs <-> exists l, betas = VList l /\ Forall2 number l xs).
  { intros xs. rewrite (number_list_iff betas None (fun _ => True)) by (intros u; rewrite number_any_iff; tauto).
    split; intros (l & E & H); exists l; (split; [auto|]); clear E; (induction H; [apply Forall2_nil|apply Forall2_cons; tauto]). }
  assert (NR : forall xs, number_list rhos (Some (Fin 0)) = Ok xs <-> exists l, rhos = VList l /\ Forall2 (fun v x => number v x /\ or_nan (at_least 0) x) l xs).
  { intros xs. apply number_list_iff. intros u. apply number_ge_iff. }
  rewrite !seq_ok, (int_ge_iff 2), (int_ge_iff 1), (int_range_iff 0), random_given_iff, bind_ok. split.
  - intros (H1 & H2 & H3 & H4 & bs' & Hb & H). rewrite bind_ok in H. destruct H as (rs & Hr & H).
    rewrite seq_ok, raise_ok, negb_false_iff, Nat.eqb_eq, bind_ok in H. destruct H as (Hl & b & Hrt & H). rewrite !seq_ok, number_ge_iff, features_iff in H.
    destruct H as (H7 & H8 & E). injection E as <- <- <-. apply reward_type_iff in Hrt. apply NB in Hb as (vb & -> & Hb). apply NR in Hr as (vr & -> & Hr).
    split; [constructor; auto|]. split; [auto|]. exists vb, vr, rs. auto 7.
  - intros ([H1 H2 H3 H4 H5 H6 H7] & HB & vb & vr & rs & E1 & Hb & E2 & Hr & Hl & Ep). destruct c as [K d b x y f].
    cbn [sc_actions sc_dim sc_binary sc_std sc_beta sc_deficient] in *. subst y ps.
    pose proof (int_ge_fun _ _ _ H1) as F1. pose proof (int_ge_fun _ _ _ H2) as F2. pose proof (int_range_fun _ _ _ _ H3) as F3.
    pose proof (number_num _ _ (proj1 H6)) as F4. rewrite F1, F2, F3.
    split; [auto|]. split; [auto|]. split; [auto|]. split; [auto|]. exists bs. split; [apply NB; eauto|]. rewrite bind_ok. exists rs. split; [apply NR; eauto|].
    rewrite seq_ok, raise_ok, negb_false_iff, Nat.eqb_eq, bind_ok. split; [auto|]. exists b. split; [apply reward_type_iff; auto|].
    rewrite !seq_ok, number_ge_iff, features_iff, F4. auto.
Qed.

(** SyntheticContinuousBanditDataset: the interval of actions must not be empty (NaN ends pass the test). *)
Theorem C147_continuous : forall dim an rn lo hi sd d a b, cont_ctor dim an rn lo hi sd = Ok (d, a, b) <->
  int_ge 1 dim d /\ (exists x, number an x /\ or_nan (at_least 0) x) /\ (exists x, number rn x /\ or_nan (at_least 0) x) /\
  number lo a /\ number hi b /\ nle b a = false /\ given_generator sd.
Proof.
  intros dim an rn lo hi sd d a b. unfold cont_ctor.
  rewrite !seq_ok, (int_ge_iff 1), !number_ge_iff, !number_any_iff, raise_ok, random_given_iff. split.
  - intros (H1 & H2 & H3 & H4 & H5 & H6 & H7 & E). injection E as <- <- <-. eauto 10.
  - intros (H1 & (x & Hx & Px) & (y & Hy & Py) & H4 & H5 & H6 & H7).
    rewrite (number_num _ _ Hx), (number_num _ _ Hy), (number_num _ _ H4), (number_num _ _ H5), (int_ge_fun _ _ _ H1). auto 10.
Qed.

Lemma shifted_iff sd n : mapM (fun d => shifted_seed sd d) (seq 0 (S n)) = Ok (repeat tt (S n)) <-> exists s, seed_integer sd s /\ (s + Z.of_nat n < 4294967296)%Z.
Proof.
  assert (One : forall d, shifted_seed sd d = Ok tt <-> exists s, (integer sd s \/ sd = VNpInt s) /\ (0 <= s + Z.of_nat d < 4294967296)%Z).
  { intros d. unfold shifted_seed. destruct sd; try (split; [discriminate|intros (s' & [H|H] & _); [inversion H|discriminate]]).
    - unfold random_state_ok. rewrite raise_ok, orb_false_iff, Z.ltb_ge, Z.leb_gt. split.
      + intros H. exists (if b then 1 else 0)%Z. split; [left; constructor|lia].
      + intros (s & [H|H] & R); [|discriminate]. apply integer_int_of in H. simpl in H. destruct b; lia.
    - unfold random_state_ok. rewrite raise_ok, orb_false_iff, Z.ltb_ge, Z.leb_gt. split.
      + intros H. exists z. split; [left; constructor|lia].
      + intros (s & [H|H] & R); [|discriminate]. apply integer_int_of in H. simpl in H. lia.
    - unfold random_state_ok. rewrite raise_ok, orb_false_iff, Z.ltb_ge, Z.leb_gt. split.
      + intros H. exists z. split; [right; auto|lia].
      + intros (s & [H|H] & R); [inversion H|]. injection H as ->. lia. }
  assert (Uniq : forall s s', (integer sd s \/ sd = VNpInt s) -> (integer sd s' \/ sd = VNpInt s') -> s = s').
  { intros s s' [H| ->] [H'|H']; try (inversion H'; fail). - eapply integer_fun; eauto. - subst. inversion H. - injection H' as ->. auto. }
  assert (All : mapM (fun d => shifted_seed sd d) (seq 0 (S n)) = Ok (repeat tt (S n)) <-> forall d, (d <= n)%nat -> shifted_seed sd d = Ok tt).
  { assert (G : forall m s, mapM (fun d => shifted_seed sd d) (seq s m) = Ok (repeat tt m) <-> forall d, (s <= d < s + m)%nat -> shifted_seed sd d = Ok tt).
    { induction m as [|m IH]; intros s; cbn [seq mapM repeat].
      - split; [lia|reflexivity].
      - rewrite bind_ok. split.
        + intros ([] & H0 & H) d Hd. rewrite bind_ok in H. destruct H as (l & Hl & E). injection E as ->. destruct (Nat.eq_dec d s) as [->|]; [auto|].
          apply (proj1 (IH (S s))); auto. lia.
        + intros H. exists tt. split; [apply H; lia|]. rewrite bind_ok. exists (repeat tt m). split; [|reflexivity]. apply IH. intros; apply H; lia. }
    rewrite G. split; intros H d Hd; apply H; lia. }
  rewrite All. split.
  - intros H. pose proof (proj1 (One 0%nat) (H 0%nat (Nat.le_0_l n))) as (s & Hs & R0). pose proof (proj1 (One n) (H n (le_n n))) as (s' & Hs' & Rn).
    assert (s' = s) by eauto. subst s'. exists s. split; [split; [auto|lia]|lia].
  - intros (s & [Hs R] & Hn) d Hd. apply One. exists s. split; auto. lia.
Qed.

Lemma mapM_units {A} (f : A -> res unit) l us : mapM f l = Ok us -> us = repeat tt (length l).
Proof.
  revert us. induction l as [|a l IH]; intros us; cbn [mapM].
  - intros E. injection E as <-. reflexivity.
  - rewrite bind_ok. intros ([] & _ & H). rewrite bind_ok in H. destruct H as (us' & H & E). injection E as <-. simpl. f_equal. auto.
Qed.

(** SyntheticBanditDatasetWithActionEmbeds: the seed must be an integer that leaves room for one more per dimension; a
    RandomState, which the base class accepts, is refused. *)
Theorem C147_embed : forall na dim rt std beta df ac sd ncat lat ndim pstd unobs irr c z,
  embed_ctor na dim rt std beta df ac sd ncat lat ndim pstd unobs irr = Ok (c, z) <->
  synth_accepts na dim rt std df ac sd c /\ number beta (sc_beta c) /\ int_ge 1 ncat (ez_cat z) /\ int_ge 1 lat (ez_latent z) /\
  (exists x, number pstd x /\ or_nan (at_least 0) x) /\
  exists D, int_ge 1 ndim D /\ ez_dim z = (D + 1)%Z /\ int_range 0 D unobs (ez_hidden z - 1) /\ int_range 0 D irr (ez_irrelevant z - 1) /\
    exists s, seed_integer sd s /\ (s + D < 4294967296)%Z.
Proof.
  intros na dim rt std beta df ac sd ncat lat ndim pstd unobs irr c z. unfold embed_ctor.
  assert (HS : forall D us, (1 <= D)%Z -> mapM (fun d => shifted_seed sd d) (seq 0 (Z.to_nat (D + 1))) = Ok us <->
     us = repeat tt (Z.to_nat (D + 1)) /\ exists s, seed_integer sd s /\ (s + D < 4294967296)%Z).
  { intros D us HD. pose proof (shifted_iff sd (Z.to_nat D)) as SI. replace (S (Z.to_nat D)) with (Z.to_nat (D + 1)) in SI by lia.
    rewrite Z2Nat.id in SI by lia. split.
    - intros H. assert (us = repeat tt (Z.to_nat (D + 1))) by (rewrite (mapM_units _ _ _ H), seq_length; auto). subst us. split; auto. apply SI; auto.
    - intros [-> H]. apply SI; auto. }
  rewrite bind_ok. split.
  - intros (c' & Hc & H). apply synth_iff in Hc as [Hc Hbeta]. rewrite !seq_ok, !(int_ge_iff 1), number_ge_iff in H.
    destruct H as (H1 & H2 & H3 & H4 & H5 & H6 & H). pose proof (integer_num _ _ (proj1 H3)) as EN. rewrite EN in H5, H6.
    apply (int_range_iff 0 (int_of ndim)) in H5, H6.
    rewrite bind_ok in H. destruct H as (us & Hus & E). injection E as <- <-. apply HS in Hus as [_ Hs]; [|apply H3].
    cbn [ez_cat ez_latent ez_dim ez_hidden ez_irrelevant]. split; [auto|]. split; [auto|]. split; [auto|]. split; [auto|]. split; [eauto|].
    exists (int_of ndim). split; [auto|]. split; [auto|]. rewrite !Z.add_simpl_r. auto.
  - intros (Hc & Hbeta & H1 & H2 & (x & Hx & Px) & D & H3 & ED & H5 & H6 & Hs). exists c. split; [apply synth_iff; auto|].
    rewrite !seq_ok, !(int_ge_iff 1), number_ge_iff. pose proof (integer_num _ _ (proj1 H3)) as EN. rewrite EN.
    pose proof (int_ge_fun _ _ _ H1) as F1. pose proof (int_ge_fun _ _ _ H2) as F2. pose proof (int_ge_fun _ _ _ H3) as F3.
    pose proof (int_range_fun _ _ _ _ H5) as F5. pose proof (int_range_fun _ _ _ _ H6) as F6. rewrite F1, F2, F3, (number_num _ _ Hx).
    split; [auto|]. split; [auto|]. split; [auto|]. split; [auto|]. split; [apply int_range_iff; rewrite F5; auto|]. split; [apply int_range_iff; rewrite F6; auto|].
    rewrite bind_ok. exists (repeat tt (Z.to_nat (D + 1))). split; [apply HS; [apply H3|auto]|]. rewrite F5, F6. destruct z. cbn in *. subst. do 3 f_equal; lia.
Qed.

Lemma structure_iff s st : structure_of s = Some st <-> s = structure_name st.
Proof.
  unfold structure_of. split.
  - repeat match goal with |- context [String.eqb s ?x] => destruct (String.eqb_spec s x) as [->|] end; intros E; try discriminate; injection E as <-; reflexivity.
  - intros ->. destruct st; reflexivity.
Qed.

(** SyntheticSlateBanditDataset. *)
Theorem C147_slate : forall na ll dim rt rs df cm eta fact sd c, slate_ctor na ll dim rt rs df cm eta fact sd = Ok c <->
  slate_accepts na ll dim rt rs df cm eta fact sd c.
Proof.
  intros na ll dim rt rs df cm eta fact sd c. unfold slate_ctor.
  assert (HL : forall K, integer na K -> (check_scalar_v ll is_int (Some (Fin 2)) (if truthy fact then None else Some (num_of na)) = Ok tt <->
     int_ge 2 ll (int_of ll) /\ (truthy fact = false -> (int_of ll <= K)%Z))).
  { intros K HK. rewrite (integer_num na K HK). destruct (truthy fact).
    - rewrite (int_ge_iff 2). intuition discriminate.
    - rewrite (int_range_iff 2 K), int_range_ge. tauto. }
  assert (HR : negb (in_strs ["binary"; "continuous"]%string rt) = false <-> rt = VStr (reward_name (is_str "binary" rt))).
  { rewrite in_strs_iff. unfold one_of. split.
    - intros (s & [<-|[<-|[]]] & ->); reflexivity.
    - intros ->. destruct (is_str "binary" rt); eexists; (split; [|reflexivity]); simpl; auto. }
  assert (HD : negb (in_strs ["exponential"; "inverse"]%string df) = false <-> df = VStr (if is_str "exponential" df then "exponential" else "inverse")).
  { rewrite in_strs_iff. unfold one_of. split.
    - intros (s & [<-|[<-|[]]] & ->); reflexivity.
    - intros ->. destruct (is_str "exponential" df); eexists; (split; [|reflexivity]); simpl; auto. }
  assert (HS : forall st, (match rs with VStr s => match structure_of s with Some st => Ok st | None => Err ValueError end | _ => Err ValueError end) = Ok st
     <-> rs = VStr (structure_name st)).
  { intros st. destruct rs; try (split; discriminate). destruct (structure_of s) as [st'|] eqn:E.
    - apply structure_iff in E as ->. split; [congruence|]. intros H. injection H as H. f_equal. apply structure_iff in H.
      assert (H' : structure_of (structure_name st') = Some st') by (apply structure_iff; auto). congruence.
    - split; [discriminate|]. intros H. injection H as ->. assert (H' : structure_of (structure_name st) = Some st) by (apply structure_iff; auto). congruence. }
  assert (HC : forall cl, (match cm with VNone => Ok None | v => raise_if (negb (in_strs ["cascade"; "pbm"]%string v)) ValueError ;;;
       check_scalar_v eta is_float (Some (Fin 0)) None ;;; Ok (Some ((if is_str "pbm" v then "pbm" else "cascade")%string, num_of eta)) end) = Ok cl <->
     match cl with None => cm = VNone | Some (m, x) => cm = VStr m /\ In m ["cascade"; "pbm"]%string /\ eta = VFloat x /\ or_nan (at_least 0) x end).
  { assert (G : forall cl, (raise_if (negb (in_strs ["cascade"; "pbm"]%string cm)) ValueError ;;; check_scalar_v eta is_float (Some (Fin 0)) None ;;;
       Ok (Some ((if is_str "pbm" cm then "pbm" else "cascade")%string, num_of eta))) = Ok cl <->
       match cl with None => False | Some (m, x) => cm = VStr m /\ In m ["cascade"; "pbm"]%string /\ eta = VFloat x /\ or_nan (at_least 0) x end).
    { intros cl. rewrite !seq_ok, raise_ok, in_strs_iff, float_min. unfold one_of, float_in. split.
      - intros ((s & Hs & ->) & (x & -> & Hx) & E). injection E as <-. simpl in Hs. destruct Hs as [<-|[<-|[]]]; simpl; auto 8.
      - destruct cl as [[m x]|]; [|tauto]. intros (-> & Hm & -> & Hx). split; [eauto|]. split; [eauto|]. simpl in Hm. destruct Hm as [<-|[<-|[]]]; reflexivity. }
    intros cl. destruct cm; try (rewrite G; destruct cl as [[m0 x0]|]; [tauto|split; [tauto|discriminate]]).
    split; [intros E; injection E as <-; auto|]. destruct cl as [[m x]|]; [intros (E & _); discriminate|auto]. }
  rewrite !seq_ok, (int_ge_iff 2 na), (int_ge_iff 1 dim), random_state_iff, raise_ok, HR, bind_ok. split.
  - intros (H1 & H2 & H3 & H4 & H5 & st & H6 & H). apply HS in H6. rewrite seq_ok, raise_ok, HD, bind_ok in H. destruct H as (H7 & cl & H8 & H).
    apply HC in H8. rewrite seq_ok, raise_ok in H. destruct H as (H9 & E). injection E as <-. apply (HL _ (proj1 H1)) in H2.
    constructor; cbn [lc_actions lc_len lc_dim lc_binary lc_structure lc_exponential lc_click lc_fact]; auto.
    + destruct cl as [[m x]|]; [|auto]. destruct H8 as (-> & Hm & -> & Hx). split; [auto|]. split; [auto|]. split; [auto|]. split; [auto|].
      rewrite H5 in H9. destruct (is_str "binary" rt); [auto|discriminate].
    + apply truthy_iff.
  - destruct c as [K L d b st ex cl f]. intros [H1 H2 H3 H4 H5 H6 H7 H8 H9].
    cbn [lc_actions lc_len lc_dim lc_binary lc_structure lc_exponential lc_click lc_fact] in *.
    pose proof (int_ge_fun _ _ _ H1) as F1. pose proof (int_ge_fun _ _ _ (proj1 H2)) as F2. pose proof (int_ge_fun _ _ _ H3) as F3.
    assert (F4 : truthy fact = f). { rewrite <- truthy_iff in H9. destruct f, (truthy fact); auto; [symmetry; tauto|tauto]. }
    assert (F5 : is_str "binary" rt = b) by (rewrite H5; destruct b; reflexivity).
    assert (F6 : is_str "exponential" df = ex) by (rewrite H7; destruct ex; reflexivity).
    rewrite F1, F3, F5. split; [auto|]. split; [apply (HL K (proj1 H1)); rewrite F2, F4; auto|]. split; [auto|]. split; [auto|]. split; [auto|].
    exists st. split; [apply HS; auto|]. rewrite seq_ok, raise_ok, HD, bind_ok, F6. split; [auto|]. exists cl. split.
    + apply HC. destruct cl as [[m x]|]; tauto.
    + rewrite F2, F4. destruct cl as [[m x]|]; [|reflexivity]. destruct H8 as (_ & _ & _ & _ & ->). rewrite H5. reflexivity.
Qed.

(** MultiClassToBanditReduction, before the labels are read. *)
Theorem C147_multiclass : forall K m alpha df a d, mc_ctor K m alpha df = Ok (a, d) <->
  classifier m /\ alpha = VFloat a /\ (a = NaN \/ exists r, a = Fin r /\ 0 <= r < 1) /\ int_range 0 (Z.of_nat K - 1) df d.
Proof.
  intros K m alpha df a d. unfold mc_ctor. rewrite !seq_ok, !raise_ok, classifier_iff, float_min, int_range_iff. unfold float_in. split.
  - intros (H1 & (x & -> & Hx) & H2 & H3 & E). injection E as <- <-. split; [auto|]. split; [auto|]. split; [|auto]. cbn [num_of] in *.
    destruct Hx as [->|[->|(r & -> & Hr)]]; [auto|discriminate|]. right. exists r. split; auto. simpl in H3. apply Rleb_false in H3. lra.
  - intros (H1 & -> & Ha & H2). rewrite (int_range_fun _ _ _ _ H2). split; [auto|]. split.
    + exists a. split; auto. destruct Ha as [->|(r & -> & Hr)]; [left; auto|]. right; right. exists r. split; auto. lra.
    + split; [auto|]. split; [|auto]. destruct Ha as [->|(r & -> & Hr)]; [reflexivity|]. simpl. apply Rleb_false. lra.
Qed.

(** OpenBanditDataset: reads [campaign].csv in the directory of the policy and the campaign. *)
Theorem C147_obd : forall policy campaign path r, obd_ctor policy campaign path = Ok r <->
  exists b c base, policy = VStr b /\ In b ["bts"; "random"]%string /\ campaign = VStr c /\ In c ["all"; "men"; "women"]%string /\
    ((path = PNone /\ base = None) \/ (exists s, (path = PStr s \/ path = PPath s) /\ base = Some s)) /\ r = (base, b, c, (c ++ ".csv")%string).
Proof.
  intros policy campaign path r. unfold obd_ctor. rewrite !seq_ok, !raise_ok, !in_strs_iff, bind_ok. unfold one_of. split.
  - intros ((b & Hb & ->) & (c & Hc & ->) & base & Hp & E). injection E as <-. exists b, c, base. repeat (split; [solve [auto]|]). split; [|auto].
    destruct path; try discriminate; injection Hp as <-; [left; auto| |]; right; eauto.
  - intros (b & c & base & -> & Hb & -> & Hc & Hp & ->). split; [eauto|]. split; [eauto|]. exists base. split; [|reflexivity].
    destruct Hp as [[-> ->]|(s & [-> | ->] & ->)]; reflexivity.
Qed.

(** BanditEnvironmentSimulator. *)
Theorem C147_environment : forall na dim ac sd K d, env_ctor na dim ac sd = Ok (K, d) <->
  int_ge 2 na K /\ int_ge 1 dim d /\ given_generator sd /\ features_for K ac.
Proof.
  intros na dim ac sd K d. unfold env_ctor. rewrite !seq_ok, (int_ge_iff 2), (int_ge_iff 1), random_given_iff, features_iff. split.
  - intros (H1 & H2 & H3 & H4 & E). injection E as <- <-. auto.
  - intros (H1 & H2 & H3 & H4). rewrite (int_ge_fun _ _ _ H1), (int_ge_fun _ _ _ H2). auto.
Qed.

(** An unknown reward type, everything else being acceptable, is a ValueError. *)
Theorem C147_unknown_reward_type : forall na dim rt std beta df ac sd betas rhos,
  rt <> VStr "binary" -> rt <> VStr "continuous" ->
  ((exists c, synth_ctor na dim (VStr "binary") std beta df ac sd = Ok c) -> synth_ctor na dim rt std beta df ac sd = Err ValueError) /\
  ((exists c, multi_ctor na dim (VStr "binary") std betas rhos df ac sd = Ok c) -> multi_ctor na dim rt std betas rhos df ac sd = Err ValueError).
Proof.
  intros na dim rt std beta df ac sd betas rhos H1 H2.
  assert (E : reward_type_of rt = Err ValueError).
  { unfold reward_type_of. destruct rt as [| | | |s| | | | | | |]; try reflexivity. cbn [is_str]. destruct (String.eqb_spec s "binary") as [->|]; [congruence|].
    destruct (String.eqb_spec s "continuous") as [->|]; [congruence|reflexivity]. }
  assert (B : forall {A B : Type} (r : res A) (k k' : A -> res B) e, (exists c, bind r k = Ok c) -> (forall a, (exists c, k a = Ok c) -> k' a = Err e) -> bind r k' = Err e).
  { intros A B0 r k k' e H Hk. destruct r as [a|x]; cbn [bind] in *; [auto|destruct H; discriminate]. }
  split; intros H.
  - unfold synth_ctor in *. do 5 (eapply B; [exact H|clear H; intros ? H; cbv beta in H |- *]). rewrite E. reflexivity.
  - unfold multi_ctor in *. do 7 (eapply B; [exact H|clear H; intros ? H; cbv beta in H |- *]). rewrite E. reflexivity.
Qed.

Lemma refused_synth na dim rt std beta df ac sd : refused (synth_ctor na dim rt std beta df ac sd).
Proof. unfold synth_ctor. refuse. Qed.
Lemma refused_list v mn : refused (number_list v mn).
Proof. unfold number_list. destruct v; refuse. Qed.
Lemma refused_shifted sd d : refused (shifted_seed sd d).
Proof. unfold shifted_seed. destruct sd; refuse. Qed.
#[local] Hint Resolve refused_synth refused_list refused_shifted : refuse.

Theorem C147_errors : forall na dim rt std beta betas rhos df ac sd an rn lo hi ncat lat ndim pstd unobs irr ll rs decay cm eta fact K m policy campaign path e,
  synth_ctor na dim rt std beta df ac sd = Err e \/ multi_ctor na dim rt std betas rhos df ac sd = Err e \/
  cont_ctor dim an rn lo hi sd = Err e \/ embed_ctor na dim rt std beta df ac sd ncat lat ndim pstd unobs irr = Err e \/
  slate_ctor na ll dim rt rs decay cm eta fact sd = Err e \/ mc_ctor K m beta df = Err e \/ obd_ctor policy campaign path = Err e \/
  env_ctor na dim ac sd = Err e -> e = TypeError \/ e = ValueError.
Proof.
  intros na dim rt std beta betas rhos df ac sd an rn lo hi ncat lat ndim pstd unobs irr ll rs decay cm eta fact K m policy campaign path e H.
  assert (R1 : refused (synth_ctor na dim rt std beta df ac sd)) by refuse.
  assert (R2 : refused (multi_ctor na dim rt std betas rhos df ac sd)) by (unfold multi_ctor; refuse).
  assert (R3 : refused (cont_ctor dim an rn lo hi sd)) by (unfold cont_ctor; refuse).
  assert (R4 : refused (embed_ctor na dim rt std beta df ac sd ncat lat ndim pstd unobs irr)) by (unfold embed_ctor; refuse).
  assert (R5 : refused (slate_ctor na ll dim rt rs decay cm eta fact sd)).
  { unfold slate_ctor. do 5 (apply refused_bind; [refuse|intros ? _]). apply refused_bind; [destruct rs; try refuse; destruct (structure_of s); refuse|intros ? _].
    apply refused_bind; [refuse|intros ? _]. apply refused_bind; [destruct cm; refuse|intros ? _]. refuse. }
  assert (R6 : refused (mc_ctor K m beta df)) by (unfold mc_ctor; refuse).
  assert (R7 : refused (obd_ctor policy campaign path)).
  { unfold obd_ctor. do 2 (apply refused_bind; [refuse|intros ? _]). apply refused_bind; [destruct path; refuse|intros ? _]. destruct policy; try refuse. destruct campaign; refuse. }
  assert (R8 : refused (env_ctor na dim ac sd)) by (unfold env_ctor; refuse).
  destruct H as [H|[H|[H|[H|[H|[H|[H|H]]]]]]]; eauto.
Qed.

Example C147_cases :
  synth_ctor (VInt 3) (VInt 1) (VStr "binary") (VFloat (Fin 1)) (VFloat NaN) (VInt 0) ANone (VInt 7) = Ok (mkSynthConf 3 1 true (Fin 1) NaN 0) /\
  multi_ctor (VInt 3) (VInt 1) (VStr "continuous") (VInt 1) (VList [VInt 1; VFloat (Fin (-1))]) (VList [VInt 1; VInt 3]) (VInt 0) (AArray 2 3) (VInt 7)
    = Ok (mkSynthConf 3 1 false (Fin 1) (Fin 1) 0, [Fin 1; Fin (-1)], [Fin (1/4); Fin (3/4)]) /\
  synth_ctor (VInt 3) (VInt 1) (VStr "binary") (VFloat (Fin 1)) (VFloat (Fin 1)) (VInt 0) ANone VRandomState = Ok (mkSynthConf 3 1 true (Fin 1) (Fin 1) 0) /\
  (forall e, ~ exists c, embed_ctor (VInt 3) (VInt 1) (VStr "binary") (VFloat (Fin 1)) (VFloat (Fin 1)) (VInt 0) ANone VRandomState (VInt 10) (VInt 5) (VInt 3)
    (VFloat (Fin 1)) (VInt 0) (VInt 0) = Ok (c, e)) /\
  embed_ctor (VInt 3) (VInt 1) (VStr "binary") (VFloat (Fin 1)) (VFloat (Fin 1)) (VInt 0) ANone (VInt 7) (VInt 10) (VInt 5) (VInt 3)
    (VFloat (Fin 1)) (VInt 0) (VInt 1) = Ok (mkSynthConf 3 1 true (Fin 1) (Fin 1) 0, mkEmbedSizes 10 5 4 1 2) /\
  slate_ctor (VInt 2) (VInt 3) (VInt 1) (VStr "binary") (VStr "independent") (VStr "inverse") (VStr "pbm") (VFloat (Fin 1)) (VBool true) VNone
    = Ok (mkSlateConf 2 3 1 true Independent false (Some ("pbm"%string, Fin 1)) true) /\
  cont_ctor (VInt 2) (VInt 0) (VInt 0) (VInt (-1)) (VFloat PInf) (VInt 0) = Ok (2%Z, Fin (-1), PInf) /\
  mc_ctor 3 (MEstimator true) (VFloat (Fin (1/2))) (VInt 2) = Ok (Fin (1/2), 2%Z) /\
  obd_ctor (VStr "bts") (VStr "men") PNone = Ok (None, "bts", "men", "men.csv")%string /\
  env_ctor (VInt 2) (VInt 1) (AArray 2 2) (VInt 0) = Ok (2%Z, 1%Z).
Proof.
  assert (Seed : forall z, (0 <= z < 4294967296)%Z -> given_generator (VInt z)).
  { intros z Hz. right. exists z. split; [left; constructor|auto]. }
  assert (Std : number (VFloat (Fin 1)) (Fin 1) /\ or_nan (at_least 0) (Fin 1)) by (split; [apply number_float|right; right; exists 1; split; auto; lra]).
  assert (Ge : forall m z, (m <= z)%Z -> int_ge m (VInt z) z) by (intros; split; [constructor|auto]).
  assert (Rg : forall l h z, (l <= z <= h)%Z -> int_range l h (VInt z) z) by (intros; split; [constructor|auto]).
  assert (Acc : forall sd beta, given_generator sd -> synth_accepts (VInt 3) (VInt 1) (VStr "binary") (VFloat (Fin 1)) (VInt 0) ANone sd (mkSynthConf 3 1 true (Fin 1) beta 0)).
  { intros sd beta H. constructor; cbn; try (apply Ge; lia); try (apply Rg; lia); auto. left; auto. }
  assert (NI : forall z, number (VInt z) (Fin (IZR z))) by (intros; apply number_int; constructor).
  split; [|split; [|split; [|split; [|split; [|split; [|split; [|split; [|split]]]]]]]].
  - apply C147_synthetic. split; [apply Acc, Seed; lia|constructor].
  - apply C147_multi. split.
    + constructor; cbn; try (apply Ge; lia); try (apply Rg; lia); auto.
      * apply Seed; lia.
      * split; [apply (NI 1%Z)|right; right; exists 1; split; auto; lra].
      * right. exists 3%nat. auto.
    + split; auto. exists [VInt 1; VFloat (Fin (-1))], [VInt 1; VInt 3], [Fin 1; Fin 3]. split; auto. split; [apply Forall2_cons; [apply (NI 1%Z)|apply Forall2_cons; [apply number_float|apply Forall2_nil]]|].
      split; auto. split.
      * apply Forall2_cons; [split; [apply (NI 1%Z)|right; right; exists 1; split; auto; lra]|].
        apply Forall2_cons; [split; [apply (NI 3%Z)|right; right; exists 3; split; auto; lra]|apply Forall2_nil].
      * split; auto. unfold nsum, ndiv. cbn [fold_right nadd map]. replace (1 + (3 + 0)) with 4 by lra. rewrite (proj2 (Reqb_false 4 0)) by lra. reflexivity.
  - apply C147_synthetic. split; [apply Acc; left; auto|apply number_float].
  - intros e (c & E). apply C147_embed in E as (_ & _ & _ & _ & _ & D & _ & _ & _ & _ & s & [[H|H] _] & _); [inversion H|discriminate].
  - apply C147_embed. split; [apply Acc, Seed; lia|]. split; [apply number_float|]. cbn. split; [apply Ge; lia|]. split; [apply Ge; lia|]. split; [eauto|].
    exists 3%Z. split; [apply Ge; lia|]. split; auto. split; [apply Rg; lia|]. split; [apply Rg; lia|]. exists 7%Z. split; [|lia]. split; [left; constructor|lia].
  - apply C147_slate. constructor; cbn; try (apply Ge; lia); auto.
    + split; [apply Ge; lia|discriminate].
    + left; auto.
    + split; auto. split; auto. split; auto. split; auto. right; right. exists 1. split; auto; lra.
    + split; [discriminate|]. intros F. repeat (destruct F as [F|F]; [discriminate|]). destruct F.
  - apply C147_continuous. split; [apply Ge; lia|]. assert (Z0 : number (VInt 0) (Fin 0) /\ or_nan (at_least 0) (Fin 0)) by (split; [apply (NI 0%Z)|right; right; exists 0; split; auto; lra]).
    split; [eauto|]. split; [eauto|]. split; [apply (NI (-1)%Z)|]. split; [apply number_float|]. split; [reflexivity|apply Seed; lia].
  - apply C147_multiclass. split; [apply classifier_iff; reflexivity|]. split; auto. split; [right; exists (1/2); split; auto; lra|apply Rg; lia].
  - reflexivity.
  - apply C147_environment. split; [apply Ge; lia|]. split; [apply Ge; lia|]. split; [apply Seed; lia|right; exists 2%nat; auto].
Qed.

Example C147_unknown_reward_type_example :
  synth_ctor (VInt 3) (VInt 1) (VStr "Binary") (VFloat (Fin 1)) (VFloat NaN) (VInt 0) ANone (VInt 7) = Err ValueError.
Proof.
  apply (C147_unknown_reward_type _ _ _ _ _ _ _ _ VNone VNone); try discriminate. eexists. apply C147_cases.
Qed.

Print Assumptions C145_egreedy.
Print Assumptions C145_bts.
Print Assumptions C145_lin_ts.
Print Assumptions C145_lin_epsilon.
Print Assumptions C145_log_ts.
Print Assumptions C145_log_epsilon.
Print Assumptions C145_errors.
Print Assumptions C145_bts_errors.
Print Assumptions C145_bts_campaign.
Print Assumptions C146_regression.
Print Assumptions C146_slate_regression.
Print Assumptions C146_importance_weights.
Print Assumptions C146_propensities.
Print Assumptions C146_ipw_learner.
Print Assumptions C146_q_learner.
Print Assumptions C146_errors.
Print Assumptions C147_synthetic.
Print Assumptions C147_multi.
Print Assumptions C147_continuous.
Print Assumptions C147_embed.
Print Assumptions C147_slate.
Print Assumptions C147_multiclass.
Print Assumptions C147_obd.
Print Assumptions C147_environment.
Print Assumptions C147_errors.
Print Assumptions C146_marginalized.
Print Assumptions C146_marginalized_errors.
Print Assumptions C147_unknown_reward_type.
