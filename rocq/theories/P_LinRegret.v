(** * P_LinRegret: cumulative regret of LinUCB over a whole run (C163). *)

From Coq Require Import Reals List ZArith Lia Lra Psatz Bool Permutation.
From Verif Require Import Num NpList M_Utils M_Slate M_Multi M_Embed M_Policy M_Linear S_Base S_Tuning S_Policy S_Linear
  L_Num L_Base L_Tuning L_Embed L_Policy L_Linear P_Linear P_LinWidth.
Import ListNotations.
Open Scope R_scope.

(** The first [t] rounds of a run: at round [s] the context is X (ctx s), the policy plays [act s] and is told
    the reward [rew s (act s)]. *)
Definition first_rounds (X : nat -> nat -> R) (ctx act : nat -> nat) (rew : nat -> nat -> R) (t : nat) : list round :=
  tab t (fun s => mkRound (Z.of_nat (act s)) (rew s (act s)) (X (ctx s))).

(** [act] is what LinUCB plays: at each of the [T] rounds it is the action ranked first by the object updated with
    all earlier rounds. *)
Definition played_by_linucb argsort (d : nat) (p0 : linp) (epsilon : R) X ctx rew (T : nat) (act : nat -> nat) : Prop :=
  forall t, (t < T)%nat -> exists l,
    lin_ucb_select_action argsort (Fin epsilon) (lin_updates d p0 (first_rounds X ctx act rew t)) [tabF d (X (ctx t))] = Ok (act t :: l).

Section Run.
  Variables (X : nat -> nat -> R) (ctx act : nat -> nat) (rew : nat -> nat -> R).

  Fixpoint cnt (t a c : nat) : nat :=
    match t with
    | O => O
    | S t' => (cnt t' a c + if Nat.eqb (act t') a && Nat.eqb (ctx t') c then 1 else 0)%nat
    end.

  Lemma slot_nat K a : slot K (Z.of_nat a) = a.
  Proof. unfold slot. destruct (Z.ltb_spec (Z.of_nat a) 0). lia. apply Nat2Z.id. Qed.

  Lemma cnt_seen K d t a c : seen_with K d (X c) a (first_rounds X ctx act rew t) (cnt t a c).
  Proof.
    induction t as [|t (keep & Hm & Hk & rest & HP)].
    - exists []. split; [reflexivity|split; [intros ? []|]]. exists []. constructor.
    - unfold first_rounds in *. rewrite tab_S. cbn [cnt]. set (e := mkRound _ _ _).
      destruct (Nat.eqb_spec (act t) a) as [Ea|Ea]; destruct (Nat.eqb_spec (ctx t) c) as [Ec|Ec]; cbn [andb].
      + exists (keep ++ [e]). split; [rewrite app_length; simpl; lia|]. split.
        * intros e' He. apply in_app_or in He as [He|[<-|[]]]; [auto|]. unfold e. simpl. rewrite slot_nat, Ec. auto.
        * exists rest. rewrite <- app_assoc. eapply Permutation_trans; [apply Permutation_app_tail, HP|].
          rewrite <- app_assoc. apply Permutation_app_head. apply Permutation_app_comm.
      + rewrite Nat.add_0_r. exists keep. split; [auto|split; [auto|]]. exists (rest ++ [e]). rewrite app_assoc. apply Permutation_app_tail; auto.
      + rewrite Nat.add_0_r. exists keep. split; [auto|split; [auto|]]. exists (rest ++ [e]). rewrite app_assoc. apply Permutation_app_tail; auto.
      + rewrite Nat.add_0_r. exists keep. split; [auto|split; [auto|]]. exists (rest ++ [e]). rewrite app_assoc. apply Permutation_app_tail; auto.
  Qed.

  (** Summing over rounds a function of the number of earlier rounds with the same action and context. *)
  Lemma sum_by_pair (g : nat -> R) K C T :
    (forall t, (t < T)%nat -> (act t < K)%nat /\ (ctx t < C)%nat) ->
    sumn T (fun t => g (cnt t (act t) (ctx t))) = sumn K (fun a => sumn C (fun c => sumn (cnt T a c) g)).
  Proof.
    intros H. induction T as [|T IH].
    - simpl. symmetry. apply sumn_zero. intros. apply sumn_zero. auto.
    - cbn [sumn]. rewrite IH by (intros; apply H; lia). destruct (H T ltac:(lia)) as [HA HC].
      transitivity (sumn K (fun a => sumn C (fun c => sumn (cnt T a c) g)) +
        sumn K (fun a => (if Nat.eqb (act T) a then 1 else 0) * g (cnt T a (ctx T)))).
      + f_equal. clear -HA. induction K as [|K IHK]; [lia|]. cbn [sumn]. destruct (Nat.eqb_spec (act T) K) as [->|Hne].
        * rewrite sumn_zero. ring. intros i Hi. destruct (Nat.eqb_spec K i); [lia|ring].
        * rewrite <- IHK by lia. ring.
      + rewrite <- sumn_plus. apply sumn_ext. intros a Ha. cbn [cnt].
        destruct (Nat.eqb_spec (act T) a) as [E|E]; cbn [andb].
        * clear -HC. induction C as [|C IHC]; [lia|]. cbn [sumn]. destruct (Nat.eqb_spec (ctx T) C) as [EC|EC].
          { rewrite <- EC. replace (cnt T a (ctx T) + 1)%nat with (S (cnt T a (ctx T))) by lia. cbn [sumn].
            rewrite (sumn_ext (ctx T) _ (fun c => sumn (cnt T a c + (if Nat.eqb (ctx T) c then 1 else 0)) g)).
            ring. intros c Hc. destruct (Nat.eqb_spec (ctx T) c); [lia|]. rewrite Nat.add_0_r. reflexivity. }
          rewrite Nat.add_0_r, <- IHC by lia. ring.
        * rewrite Rmult_0_l, Rplus_0_r. apply sumn_ext. intros. rewrite Nat.add_0_r. reflexivity.
  Qed.
End Run.

(** Bound on the width after [m] visits, and its partial sums. *)
Definition wbound (X0 : R) (m : nat) : R := match m with O => X0 | S _ => / sqrt (INR m) end.

Lemma wbound_sum X0 n : 0 <= X0 -> sumn n (wbound X0) <= X0 + 2 * sqrt (INR n).
Proof.
  intros HX. assert (P : forall n, sumn (S n) (wbound X0) <= X0 + 2 * sqrt (INR n)).
  { intros k. induction k as [|k IH]. simpl. rewrite sqrt_0. lra.
    change (sumn (S (S k)) (wbound X0)) with (sumn (S k) (wbound X0) + / sqrt (INR (S k))).
    assert (/ sqrt (INR (S k)) <= 2 * (sqrt (INR (S k)) - sqrt (INR k))); [|lra].
    set (u := sqrt (INR (S k))). set (v := sqrt (INR k)).
    assert (Hu : 0 < u) by (apply sqrt_lt_R0, lt_0_INR; lia). assert (Hv : 0 <= v) by apply sqrt_pos.
    assert (Huu : u * u = INR k + 1) by (unfold u; rewrite sqrt_sqrt by apply pos_INR; apply S_INR).
    assert (Hvv : v * v = INR k) by (unfold v; apply sqrt_sqrt, pos_INR).
    apply (Rmult_le_reg_l u); auto. rewrite Rinv_r by lra. nra. }
  destruct n as [|n].
  - simpl. rewrite sqrt_0. lra.
  - eapply Rle_trans; [apply P|]. apply Rplus_le_compat_l, Rmult_le_compat_l; [lra|]. apply sqrt_le_1_alt, le_INR. lia.
Qed.

(** Cauchy-Schwarz for sums of square roots. *)
Lemma sum_sqrt n f : (forall i, (i < n)%nat -> 0 <= f i) -> sumn n (fun i => sqrt (f i)) <= sqrt (INR n * sumn n f).
Proof.
  intros Hf. pose proof (dot_cs n (fun _ => 1) (fun i => sqrt (f i))) as H. unfold dot in H.
  rewrite (sumn_ext n (fun i => 1 * sqrt (f i)) (fun i => sqrt (f i))) in H by (intros; ring).
  rewrite (sumn_ext n (fun _ => 1 * 1) (fun _ => 1)) in H by (intros; ring). rewrite sumn_const in H.
  rewrite (sumn_ext n (fun i => sqrt (f i) * sqrt (f i)) f) in H by (intros; apply sqrt_sqrt; auto).
  set (s := sumn n (fun i => sqrt (f i))) in *.
  assert (Hs : 0 <= s) by (apply sumn_nonneg; intros; apply sqrt_pos).
  rewrite <- (sqrt_Rsqr s) by auto. apply sqrt_le_1_alt. unfold Rsqr. lra.
Qed.

Lemma first_rounds_valid X ctx act rew K t : (forall s, (s < t)%nat -> (act s < K)%nat) ->
  forall e, In e (first_rounds X ctx act rew t) -> valid_action K (rd_action e).
Proof.
  intros H e He. unfold first_rounds, tab in He. apply in_map_iff in He as (s & <- & Hs). apply in_seq in Hs.
  specialize (H s ltac:(lia)). unfold valid_action. simpl. lia.
Qed.

Lemma committed_one {A} (h : list A) : committed 1 h = h.
Proof. unfold committed. rewrite Nat.div_1_r, Nat.mul_1_r. apply firstn_all. Qed.

(** The ridge loss of the rounds of one action is at most the loss over all rounds. *)
Lemma lsum_first X ctx act rew K t a f : (forall e, 0 <= f e) ->
  (forall s, f (mkRound (Z.of_nat a) (rew s a) (X (ctx s))) = f (mkRound 0 (rew s a) (X (ctx s)))) ->
  lsum K (first_rounds X ctx act rew t) a f <= sumn t (fun s => f (mkRound 0 (rew s a) (X (ctx s)))).
Proof.
  intros Hf Hz. induction t as [|t IH]. simpl. lra.
  unfold first_rounds in *. rewrite tab_S, lsum_app. cbn [sumn lsum rd_action]. rewrite slot_nat.
  destruct (Nat.eqb_spec (act t) a) as [E|E].
  - rewrite E, Hz. lra.
  - specialize (Hf (mkRound 0 (rew t a) (X (ctx t)))). lra.
Qed.

(** A run exists: LinUCB always answers. *)
Lemma run_exists argsort d K L B p0 epsilon X ctx rew T :
  (forall xs, is_argsort xs (argsort xs)) ->
  lin_post_init (Z.of_nat d) (Z.of_nat K) (Z.of_nat L) (Z.of_nat B) = Ok p0 ->
  exists act, (forall t, (act t < K)%nat) /\ played_by_linucb argsort d p0 epsilon X ctx rew T act.
Proof.
  intros Hs H0. pose proof (init_pos d K L B p0 H0) as (_ & HK & HL & _). induction T as [|T (act & Ha & HP)].
  - exists (fun _ => 0%nat). split; [intros; auto|]. intros t Ht. lia.
  - destruct (C92_ucb_score argsort d K L B p0 (first_rounds X ctx act rew T) epsilon (X (ctx T)) Hs H0)
      as (th & M & _ & _ & _ & l & E & ((_ & Hlen & Hin) & _)).
    { apply first_rounds_valid. auto. }
    destruct l as [|a l]; [simpl in Hlen; lia|].
    set (act' := fun t => if Nat.eqb t T then a else act t). exists act'. split.
    + intros t. unfold act'. destruct (Nat.eqb t T); auto. apply Hin. left; auto.
    + assert (Ex : forall t, (t <= T)%nat -> first_rounds X ctx act' rew t = first_rounds X ctx act rew t).
      { intros t Ht. apply tab_ext. intros s Hs'. unfold act'. destruct (Nat.eqb_spec s T); [lia|reflexivity]. }
      intros t Ht. rewrite Ex by lia. unfold act'. destruct (Nat.eqb_spec t T) as [->|Hne].
      * exists l. exact E.
      * apply HP. lia.
Qed.

(** ** C163 *)

(** LinUCB with batch size 1 on any sequence of contexts taken from C feature vectors of norm at most X0, and any
    rewards whose total squared deviation from linear rewards x.w_a, plus |w_a|^2, is at most epsilon^2: the sum over
    T rounds of what any other choice of actions would have gained is at most
    2 epsilon (X0 K C + 2 sqrt (K C T)). *)
Theorem C163_linucb_cumulative_regret argsort d K L p0 epsilon X C ctx rew w X0 T act :
  (forall xs, is_argsort xs (argsort xs)) ->
  lin_post_init (Z.of_nat d) (Z.of_nat K) (Z.of_nat L) 1 = Ok p0 ->
  0 <= epsilon -> 0 <= X0 ->
  (forall t, (t < T)%nat -> (ctx t < C)%nat /\ sqrt (sumn d (fun i => X (ctx t) i ^ 2)) <= X0) ->
  (forall a, (a < K)%nat ->
     sumn T (fun t => (rew t a - sumn d (fun i => w a i * X (ctx t) i)) ^ 2) + sumn d (fun i => w a i ^ 2) <= epsilon ^ 2) ->
  played_by_linucb argsort d p0 epsilon X ctx rew T act ->
  (forall t, (t < T)%nat -> (act t < K)%nat) /\
  forall best, (forall t, (t < T)%nat -> (best t < K)%nat) ->
    sumn T (fun t => sumn d (fun i => X (ctx t) i * w (best t) i) - sumn d (fun i => X (ctx t) i * w (act t) i))
      <= 2 * epsilon * (X0 * (INR K * INR C) + 2 * sqrt (INR K * INR C * INR T)).
Proof.
  intros Hs H0 He HX Hctx Hw Hplay. change 1%Z with (Z.of_nat 1) in H0.
  assert (Ha : forall t, (t < T)%nat -> (act t < K)%nat).
  { intros t. induction t as [t IH] using (well_founded_induction lt_wf). intros Ht.
    destruct (Hplay t Ht) as (l & E).
    destruct (C92_ucb_score argsort d K L 1 p0 (first_rounds X ctx act rew t) epsilon (X (ctx t)) Hs H0)
      as (th & M & _ & _ & _ & l' & E' & ((_ & _ & Hin) & _)).
    { apply first_rounds_valid. intros s Hs'. apply IH; lia. }
    rewrite E in E'. injection E' as E'. apply Hin. rewrite <- E'. left; auto. }
  split; [exact Ha|]. intros best Hbest.
  assert (HR : forall t, (t < T)%nat ->
     sumn d (fun i => X (ctx t) i * w (best t) i) - sumn d (fun i => X (ctx t) i * w (act t) i)
       <= 2 * epsilon * wbound X0 (cnt ctx act t (act t) (ctx t))).
  { intros t Ht. set (h := first_rounds X ctx act rew t).
    assert (Hv : forall e, In e h -> valid_action K (rd_action e)) by (apply first_rounds_valid; intros; apply Ha; lia).
    destruct (C162_linucb_optimism argsort d K L 1 p0 h epsilon (X (ctx t)) w Hs H0 Hv He) as (M & l & sc & f & EM & Esel & Hf & _ & _ & Hreg).
    { intros a Ha'. rewrite committed_one. eapply Rle_trans; [|apply (Hw a Ha')]. unfold ridge_loss. apply Rplus_le_compat.
      - eapply Rle_trans; [apply (lsum_first X ctx act rew K t a (fun e => (rd_reward e - dot d (w a) (rd_x e)) ^ 2))|].
        intros; apply pow2_ge_0. reflexivity. cbn [rd_reward rd_x].
        assert (Hsplit : forall g, (forall s, 0 <= g s) -> sumn t g <= sumn T g).
        { intros g Hg. clear -Hg Ht. induction T as [|T' IH]; [lia|]. cbn [sumn]. specialize (Hg T').
          destruct (Nat.eq_dec t T') as [->|]; [lra|]. specialize (IH ltac:(lia)). lra. }
        apply (Hsplit (fun s => (rew s a - dot d (w a) (X (ctx s))) ^ 2)). intros; apply pow2_ge_0.
      - unfold dot. apply Req_le. apply sumn_ext. intros. ring. }
    destruct (Hplay t Ht) as (l2 & E2). fold h in E2. rewrite E2 in Esel. injection Esel as Ef _. subst f.
    specialize (Hreg (best t) (Hbest t Ht)). unfold dot at 1 2 in Hreg.
    set (q := dot d (X (ctx t)) (mvec d (M (act t)) (X (ctx t)))) in *.
    assert (Hq : sqrt q <= wbound X0 (cnt ctx act t (act t) (ctx t))).
    { destruct (C71_inverse_of_committed_rounds d K L 1 p0 h H0 Hv) as (M2 & EM2 & HM2 & _).
      assert (EMM : forall i j, (i < d)%nat -> (j < d)%nat -> M (act t) i j = M2 (act t) i j).
      { intros i j Hi Hj. rewrite EM in EM2. unfold tab3F, tab2F, tabF in EM2.
        apply (f_equal (fun A => nth j (nth i (nth (act t) A []) []) NaN)) in EM2.
        rewrite !nth_tab in EM2 by (auto; apply Ha; lia). congruence. }
      assert (Eq : q = dot d (X (ctx t)) (mvec d (M2 (act t)) (X (ctx t)))).
      { unfold q, dot, mvec. apply sumn_ext. intros i Hi. f_equal. apply sumn_ext. intros j Hj. rewrite EMM by auto. reflexivity. }
      assert (HI : is_inverse d (gram K (committed 1 h) (act t)) (M2 (act t))) by (apply HM2; apply Ha; auto).
      destruct (cnt ctx act t (act t) (ctx t)) as [|m] eqn:Ec.
      - simpl. destruct (Hctx t Ht) as [_ HXt]. eapply Rle_trans; [|exact HXt]. apply sqrt_le_1_alt. rewrite Eq.
        eapply Rle_trans; [apply (width_le_norm K d (committed 1 h) (act t)); auto|]. apply Req_le. apply sumn_ext. intros. ring.
      - destruct (C161_width_at_repeated_context d K L 1 p0 h (X (ctx t)) (act t) (S m) H0 Hv (Ha t Ht)) as (M3 & EM3 & _ & W).
        { rewrite committed_one, <- Ec. apply cnt_seen. }
        assert (E3 : forall i j, (i < d)%nat -> (j < d)%nat -> M (act t) i j = M3 (act t) i j).
        { intros i j Hi Hj. rewrite EM in EM3. unfold tab3F, tab2F, tabF in EM3.
          apply (f_equal (fun A => nth j (nth i (nth (act t) A []) []) NaN)) in EM3.
          rewrite !nth_tab in EM3 by (auto; apply Ha; lia). congruence. }
        assert (Eq3 : q = dot d (X (ctx t)) (mvec d (M3 (act t)) (X (ctx t)))).
        { unfold q, dot, mvec. apply sumn_ext. intros i Hi. f_equal. apply sumn_ext. intros j Hj. rewrite E3 by auto. reflexivity. }
        rewrite <- Eq3 in W. cbn [wbound].
        assert (Hm : 0 < INR (S m)) by (apply lt_0_INR; lia). rewrite <- sqrt_inv by auto. apply sqrt_le_1_alt.
        apply (Rmult_le_reg_l (INR (S m))); auto. rewrite Rinv_r by lra. lra. }
    assert (2 * epsilon * sqrt q <= 2 * epsilon * wbound X0 (cnt ctx act t (act t) (ctx t))) by (apply Rmult_le_compat_l; [lra|auto]).
    unfold dot in Hreg. lra. }
  eapply Rle_trans. { apply sumn_le. intros t Ht. apply (HR t Ht). }
  rewrite (sumn_scal T (2 * epsilon) (fun t => wbound X0 (cnt ctx act t (act t) (ctx t)))).
  apply Rmult_le_compat_l; [lra|].
  rewrite (sum_by_pair ctx act (wbound X0) K C T) by (intros t Ht; split; [apply Ha; auto|apply Hctx; auto]).
  eapply Rle_trans.
  { apply sumn_le. intros a Ha'. apply sumn_le. intros c Hc. apply wbound_sum. exact HX. }
  rewrite (sumn_ext K _ (fun a => INR C * X0 + 2 * sumn C (fun c => sqrt (INR (cnt ctx act T a c))))).
  2:{ intros a Ha'. rewrite sumn_plus, sumn_const, sumn_scal. reflexivity. }
  rewrite sumn_plus, sumn_const, sumn_scal.
  assert (HN : sumn K (fun a => sumn C (fun c => INR (cnt ctx act T a c))) = INR T).
  { pose proof (sum_by_pair ctx act (fun _ => 1) K C T ltac:(intros t Ht; split; [apply Ha; auto|apply Hctx; auto])) as P.
    cbv beta in P. rewrite sumn_const, Rmult_1_r in P. rewrite P. apply sumn_ext. intros a Ha'. apply sumn_ext. intros c Hc. rewrite sumn_const. ring. }
  assert (HS : sumn K (fun a => sumn C (fun c => sqrt (INR (cnt ctx act T a c)))) <= sqrt (INR K * INR C * INR T)).
  { eapply Rle_trans. { apply sumn_le. intros a Ha'. apply sum_sqrt. intros. apply pos_INR. }
    eapply Rle_trans.
    { apply (sum_sqrt K (fun a => INR C * sumn C (fun c => INR (cnt ctx act T a c)))). intros.
      apply Rmult_le_pos; [apply pos_INR|]. apply sumn_nonneg. intros. apply pos_INR. }
    apply sqrt_le_1_alt. rewrite sumn_scal, HN. lra. }
  lra.
Qed.

(** Such a run exists for every sequence of contexts and rewards. *)
Theorem C163_runs_exist argsort d K L B p0 epsilon X ctx rew T :
  (forall xs, is_argsort xs (argsort xs)) ->
  lin_post_init (Z.of_nat d) (Z.of_nat K) (Z.of_nat L) (Z.of_nat B) = Ok p0 ->
  exists act, (forall t, (act t < K)%nat) /\ played_by_linucb argsort d p0 epsilon X ctx rew T act.
Proof. apply run_exists. Qed.

(** Two contexts (1, 0) and (0, 1) in alternation, noiseless rewards of the parameters (1, 0) and (0, 1), epsilon 1:
    over 400 rounds LinUCB loses at most 168 against the best action in each round, whatever the ties. *)
Example C163_ex : exists p0, lin_post_init 2 2 1 1 = Ok p0 /\
  exists act, played_by_linucb isort 2 p0 1 (fun c i => delta c i) (fun t => t mod 2)%nat (fun t a => delta (t mod 2) a) 400 act /\
    sumn 400 (fun t => sumn 2 (fun i => delta (t mod 2) i * delta (t mod 2) i) - sumn 2 (fun i => delta (t mod 2) i * delta (act t) i)) <= 168.
Proof.
  assert (exists p0, lin_post_init 2 2 1 1 = Ok p0) as [p0 H0] by (eexists; reflexivity). exists p0. split; [exact H0|].
  destruct (C163_runs_exist isort 2 2 1 1 p0 1 (fun c i => delta c i) (fun t => t mod 2)%nat (fun t a => delta (t mod 2) a) 400 isort_ok H0)
    as (act & _ & HP). exists act. split; [exact HP|].
  assert (Hm : forall t, (t mod 2 < 2)%nat) by (intros; apply Nat.mod_upper_bound; lia).
  assert (Hd : forall c, (c < 2)%nat -> sumn 2 (fun i => delta c i ^ 2) = 1).
  { intros c Hc. assert (c = 0 \/ c = 1)%nat as [->| ->] by lia; unfold delta; simpl; ring. }
  destruct (C163_linucb_cumulative_regret isort 2 2 1 p0 1 (fun c i => delta c i) 2 (fun t => t mod 2)%nat (fun t a => delta (t mod 2) a)
    (fun a i => delta a i) 1 400 act isort_ok H0 ltac:(lra) ltac:(lra)) as [_ HR].
  - intros t Ht. split; [apply Hm|]. rewrite Hd by apply Hm. rewrite sqrt_1. lra.
  - intros a Ha. rewrite (Hd a Ha). rewrite sumn_zero. lra. intros t Ht.
    assert (E : delta (t mod 2) a - sumn 2 (fun i => delta a i * delta (t mod 2) i) = 0).
    { rewrite (sumn_delta 2 (fun i => delta (t mod 2) i) a Ha). ring. }
    rewrite E. ring.
  - exact HP.
  - eapply Rle_trans; [apply (HR (fun t => t mod 2)%nat)|].
    + intros; apply Hm.
    + replace (INR 2 * INR 2 * INR 400) with (40 * 40) by (rewrite !INR_IZR_INZ; simpl; ring). rewrite sqrt_square by lra. simpl INR. lra.
Qed.

Print Assumptions C163_linucb_cumulative_regret.
Print Assumptions C163_runs_exist.
