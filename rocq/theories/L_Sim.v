(** * L_Sim: lemmas about the simulator model. *)

From Coq Require Import Reals List ZArith Lia Lra Bool Permutation.
From Verif Require Import Num NpList M_Utils M_Feedback M_Sim S_Base S_Sim L_Num L_Base.
Import ListNotations.
Open Scope R_scope.

(** ** The dictionary *)
Lemma Reqb_spec x y : reflect (x = y) (Reqb x y).
Proof. unfold Reqb. destruct (Req_EM_T x y); constructor; auto. Qed.

Lemma lk_get_append l k v k' : lk_get (lk_append l k v) k' = if Reqb k k' then lk_get l k' ++ [v] else lk_get l k'.
Proof.
  induction l as [|[k0 vs] t IH]; simpl. reflexivity.
  destruct (Reqb_spec k0 k) as [E|E]; simpl.
  - subst k0. destruct (Reqb_spec k k'); auto.
  - rewrite IH. destruct (Reqb_spec k0 k') as [E'|E']; auto. destruct (Reqb_spec k k'); auto. congruence.
Qed.
Lemma lk_append_keys l k v : NoDup (map fst l) -> NoDup (map fst (lk_append l k v)) /\
  (forall x, In x (map fst (lk_append l k v)) <-> x = k \/ In x (map fst l)).
Proof.
  induction l as [|[k0 vs] t IH]; simpl; intros H.
  - split. repeat constructor; auto. intros x. intuition.
  - inversion H; subst. destruct (IH H3) as [I1 I2]. destruct (Reqb_spec k0 k) as [E|E]; simpl.
    + subst k0. split. constructor; auto. intros y. intuition.
    + split. constructor; auto. rewrite I2. intros [X|X]; auto. intros y. rewrite I2. intuition.
Qed.
Lemma lk_append_nonempty l k v : Forall (fun p => snd p <> []) l -> Forall (fun p => snd p <> []) (lk_append l k v).
Proof.
  induction l as [|[k0 vs] t IH]; simpl; intros H. constructor; auto. simpl. discriminate.
  inversion H; subst. destruct (Reqb k0 k); constructor; auto. simpl. destruct vs; discriminate.
Qed.
Lemma lk_get_notin l k : ~ In k (map fst l) -> lk_get l k = [].
Proof.
  induction l as [|[k0 vs] t IH]; simpl; intros H; auto. destruct (Reqb_spec k0 k); [tauto|]. apply IH. tauto.
Qed.
Lemma lk_pop_keys l k : NoDup (map fst l) -> NoDup (map fst (lk_pop l k)) /\
  (forall x, In x (map fst (lk_pop l k)) <-> In x (map fst l) /\ x <> k).
Proof.
  induction l as [|[k0 vs] t IH]; simpl; intros H. split. constructor. tauto.
  inversion H; subst. destruct (IH H3) as [I1 I2]. destruct (Reqb_spec k0 k) as [E|E]; simpl.
  - subst k0. split; auto. intros x. split. intros X. split; auto. congruence. intros [[X|X] Y]; auto. congruence.
  - split. constructor; auto. rewrite I2. tauto. intros x. rewrite I2. split. intros [X|X]. subst. auto. tauto. intros [[X|X] Y]; auto.
Qed.
Lemma lk_get_pop l k k' : NoDup (map fst l) -> lk_get (lk_pop l k) k' = if Reqb k k' then [] else lk_get l k'.
Proof.
  induction l as [|[k0 vs] t IH]; simpl; intros H. destruct (Reqb k k'); auto.
  inversion H; subst. destruct (Reqb_spec k0 k) as [E|E]; simpl.
  - subst k0. destruct (Reqb_spec k k') as [E|E]; auto. subst k'. apply lk_get_notin; auto.
  - rewrite IH by auto. destruct (Reqb_spec k0 k') as [E'|E'].
    + subst k'. destruct (Reqb_spec k k0); congruence.
    + reflexivity.
Qed.
Lemma lk_pop_nonempty l k : Forall (fun p => snd p <> []) l -> Forall (fun p : R * list nat => snd p <> []) (lk_pop l k).
Proof.
  induction l as [|[k0 vs] t IH]; simpl; intros H; auto. inversion H; subst. destruct (Reqb k0 k); auto.
Qed.
(** The values of a dictionary whose entry lists partition [l] by key. *)
Lemma lk_values l d (key : nat -> R) : NoDup (map fst d) ->
  Forall (fun p => snd p <> []) d ->
  (forall k, lk_get d k = filter (fun t => Reqb (key t) k) l) -> Permutation (concat (map snd d)) l.
Proof.
  revert l. induction d as [|[k vs] t IH]; simpl; intros l Hn Hf Hg.
  - destruct l as [|x l]; auto. specialize (Hg (key x)). simpl in Hg. destruct (Reqb_spec (key x) (key x)); congruence.
  - inversion Hn; inversion Hf; subst.
    assert (Ev : vs = filter (fun t => Reqb (key t) k) l). { specialize (Hg k). destruct (Reqb_spec k k); congruence. }
    assert (Permutation (concat (map snd t)) (filter (fun t => negb (Reqb (key t) k)) l)).
    { apply IH; auto. intros k'. specialize (Hg k'). destruct (Reqb_spec k k') as [E|E].
      - subst k'. rewrite lk_get_notin by auto. symmetry. clear -l. induction l as [|x l IHl]; simpl; auto.
        destruct (Reqb_spec (key x) k) as [E|E]; simpl; auto. destruct (Reqb_spec (key x) k); congruence.
      - rewrite Hg. clear -E. induction l as [|x l IHl]; simpl; auto.
        destruct (Reqb_spec (key x) k') as [E1|E1]; destruct (Reqb_spec (key x) k) as [E2|E2]; simpl; try congruence.
        destruct (Reqb_spec (key x) k'); congruence. destruct (Reqb_spec (key x) k'); congruence. }
    rewrite H, Ev. clear. induction l as [|x l IHl]; simpl; auto. destruct (Reqb (key x) k); simpl; auto.
    eapply Permutation_trans. symmetry. apply Permutation_middle. constructor. exact IHl.
Qed.

(** ** Delivery schedule *)
Section Schedule.
Variable D : nat -> option R.

Lemma in_delivered_at s t : In t (delivered_at D s) <->
  match D s with
  | None => t = s
  | Some _ => (t <= s)%nat /\ exists d, D t = Some d /\ d + INR t = INR s
  end.
Proof.
  unfold delivered_at. destruct (D s) eqn:E.
  - rewrite filter_In, in_seq. split.
    + intros [H1 H2]. split. lia. destruct (D t); [|discriminate]. eexists. split; [reflexivity|]. destruct (Reqb_spec (r0 + INR t) (INR s)); congruence.
    + intros [H1 (d & H2 & H3)]. split. lia. rewrite H2. destruct (Reqb_spec (d + INR t) (INR s)); congruence.
  - simpl. intuition.
Qed.
Lemma delivered_unique s s' t : In t (delivered_at D s) -> In t (delivered_at D s') -> s = s'.
Proof.
  rewrite !in_delivered_at. destruct (D s) eqn:E; destruct (D s') eqn:E'.
  - intros [_ (d & H1 & H2)] [_ (d' & H3 & H4)]. apply INR_eq. congruence.
  - intros [_ (d & H1 & H2)] ->. congruence.
  - intros -> [_ (d & H1 & H2)]. congruence.
  - congruence.
Qed.
Lemma NoDup_delivered_at s : NoDup (delivered_at D s).
Proof. unfold delivered_at. destruct (D s). apply NoDup_filter, seq_NoDup. constructor; auto. constructor. Qed.
Lemma delivered_before_S n : delivered_before D (S n) = delivered_before D n ++ delivered_at D n.
Proof. unfold delivered_before. rewrite seq_S, map_app, concat_app. simpl. rewrite app_nil_r. reflexivity. Qed.
Lemma in_delivered_before n t : In t (delivered_before D n) <-> exists s, (s < n)%nat /\ In t (delivered_at D s).
Proof.
  unfold delivered_before. rewrite in_concat. split.
  - intros (x & Hx & Ht). apply in_map_iff in Hx as (s & <- & Hs). apply in_seq in Hs. exists s. split; auto. lia.
  - intros (s & Hs & Ht). exists (delivered_at D s). split; auto. apply in_map. apply in_seq. lia.
Qed.
Lemma delivered_le s t : In t (delivered_at D s) -> (t <= s)%nat.
Proof. rewrite in_delivered_at. destruct (D s). tauto. intros ->. lia. Qed.
Lemma NoDup_delivered_before n : NoDup (delivered_before D n).
Proof.
  induction n. constructor. rewrite delivered_before_S.
  assert (G : forall a b : list nat, NoDup a -> NoDup b -> (forall x, In x a -> In x b -> False) -> NoDup (a ++ b)).
  { induction a; simpl; intros b Ha Hb Hab; auto. inversion Ha; subst. constructor.
    rewrite in_app_iff. intros [X|X]; auto. apply (Hab a); auto. apply IHa; auto. intros x X Y. apply (Hab x); auto. }
  apply G; auto. apply NoDup_delivered_at. intros t H1 H2. apply in_delivered_before in H1 as (s & Hs & H1).
  pose proof (delivered_unique s n t H1 H2). lia.
Qed.
Lemma existsb_In t l : existsb (Nat.eqb t) l = true <-> In t l.
Proof. rewrite existsb_exists. split. intros (x & H & E). apply Nat.eqb_eq in E. congruence. intros H. exists t. split; auto. apply Nat.eqb_refl. Qed.
Lemma in_undelivered n t : In t (undelivered D n) <-> (t < n)%nat /\ ~ In t (delivered_before D n).
Proof.
  unfold undelivered. rewrite filter_In, in_seq, negb_true_iff, <- existsb_In.
  destruct (existsb (Nat.eqb t) (delivered_before D n)); intuition; try lia; try discriminate.
Qed.
(** Every round is delivered once or still undelivered. *)
Lemma schedule_partition n : Permutation (delivered_before D n ++ undelivered D n) (seq 0 n).
Proof.
  apply NoDup_Permutation.
  - assert (G : forall a b : list nat, NoDup a -> NoDup b -> (forall x, In x a -> In x b -> False) -> NoDup (a ++ b)).
    { induction a; simpl; intros b Ha Hb Hab; auto. inversion Ha; subst. constructor.
      rewrite in_app_iff. intros [X|X]; auto. apply (Hab a); auto. apply IHa; auto. intros x X Y. apply (Hab x); auto. }
    apply G. apply NoDup_delivered_before. apply NoDup_filter, seq_NoDup.
    intros x H1 H2. apply in_undelivered in H2. tauto.
  - apply seq_NoDup.
  - intros t. rewrite in_app_iff, in_seq, in_undelivered. split.
    + intros [H|H]; [|lia]. apply in_delivered_before in H as (s & Hs & H). apply delivered_le in H. lia.
    + intros H. destruct (in_dec Nat.eq_dec t (delivered_before D n)); [left; auto|right; split; auto; lia].
Qed.
End Schedule.

Lemma delivered_at_ext D D' s : (forall t, (t <= s)%nat -> D t = D' t) -> delivered_at D s = delivered_at D' s.
Proof.
  intros H. unfold delivered_at. rewrite <- (H s) by lia. destruct (D s); auto. apply filter_ext_in.
  intros t Ht. apply in_seq in Ht. rewrite <- H by lia. reflexivity.
Qed.
Lemma delivered_before_ext D D' n : (forall t, (t < n)%nat -> D t = D' t) -> delivered_before D n = delivered_before D' n.
Proof.
  intros H. unfold delivered_before. f_equal. apply map_ext_in. intros s Hs. apply in_seq in Hs. apply delivered_at_ext.
  intros t Ht. apply H. lia.
Qed.
Lemma undelivered_ext D D' n : (forall t, (t < n)%nat -> D t = D' t) -> undelivered D n = undelivered D' n.
Proof. intros H. unfold undelivered. rewrite (delivered_before_ext D D'); auto. Qed.

Definition dkey (D : nat -> option R) (t : nat) : R := match D t with Some d => d + INR t | None => -1 end.

(** What is due now is what is undelivered with the current key. *)
Lemma due_now D n d : D n = Some d ->
  filter (fun t => Reqb (dkey D t) (INR n)) (undelivered D n ++ [n]) = delivered_at D n.
Proof.
  intros E. unfold delivered_at. rewrite E. rewrite seq_S, !filter_app. f_equal.
  - unfold undelivered. clear E.
    assert (G : forall l, (forall t, In t l -> (t < n)%nat) ->
      filter (fun t => Reqb (dkey D t) (INR n)) (filter (fun t => negb (existsb (Nat.eqb t) (delivered_before D n))) l) =
      filter (fun t => match D t with Some d0 => Reqb (d0 + INR t) (INR n) | None => false end) l).
    { induction l as [|t l IH]; simpl; intros Hl; auto.
      destruct (existsb (Nat.eqb t) (delivered_before D n)) eqn:Ex; simpl.
      - rewrite IH by auto. destruct (D t) as [d0|] eqn:Ed; auto. destruct (Reqb_spec (d0 + INR t) (INR n)) as [E|E]; auto.
        exfalso. apply existsb_In, in_delivered_before in Ex as (s & Hs & Hi). apply in_delivered_at in Hi.
        destruct (D s) eqn:Es. destruct Hi as [_ (d' & H1 & H2)]. assert (INR n = INR s) by congruence. apply INR_eq in H. lia.
        subst. congruence.
      - unfold dkey at 1. rewrite IH by auto. destruct (D t) as [d0|]; auto.
        destruct (Reqb_spec (-1) (INR n)) as [E|E]; auto. pose proof (pos_INR n). lra. }
    apply G. intros t Ht. apply in_seq in Ht. lia.
  - simpl. unfold dkey. rewrite E. reflexivity.
Qed.
Lemma filter_filter {A} (f g : A -> bool) l : filter f (filter g l) = filter (fun x => f x && g x) l.
Proof. induction l; simpl; auto. destruct (g a) eqn:E; simpl; rewrite ?IHl; destruct (f a); simpl; auto. Qed.
Lemma undelivered_S_gen D n :
  undelivered D (S n) = filter (fun t => negb (existsb (Nat.eqb t) (delivered_at D n))) (undelivered D n ++ [n]).
Proof.
  unfold undelivered at 1. rewrite delivered_before_S, seq_S, !filter_app. simpl plus. f_equal.
  - unfold undelivered. rewrite filter_filter. apply filter_ext_in. intros t Ht. rewrite existsb_app.
    rewrite negb_orb, andb_comm. reflexivity.
  - simpl. rewrite existsb_app. assert (Ex : existsb (Nat.eqb n) (delivered_before D n) = false).
    { apply not_true_is_false. rewrite existsb_In, in_delivered_before. intros (s & Hs & H). apply delivered_le in H. lia. }
    rewrite Ex. reflexivity.
Qed.
Lemma filter_id {A} (f : A -> bool) l : (forall x, In x l -> f x = true) -> filter f l = l.
Proof. induction l; simpl; intros H; auto. rewrite H by auto. f_equal. auto. Qed.
Lemma undelivered_None D n : D n = None -> undelivered D (S n) = undelivered D n.
Proof.
  intros E. rewrite undelivered_S_gen, filter_app. simpl.
  assert (Ed : delivered_at D n = [n]) by (unfold delivered_at; rewrite E; reflexivity). rewrite Ed. simpl. rewrite Nat.eqb_refl. simpl.
  rewrite app_nil_r. apply filter_id.
  intros t Ht. apply in_undelivered in Ht as [Ht _]. destruct (Nat.eqb_spec t n); [lia|reflexivity].
Qed.

(** ** The run *)
Lemma rec_update {P} (pol : policy P) p log c a r : pol_type pol <> Offline ->
  exists p' o, sim_update_policy (recording pol) (p, log) c a r = ((p', log ++ [(visible (pol_type pol) c, a, r)]), o) /\
  sim_update_policy pol p c a r = (p', o).
Proof.
  intros Ht. unfold sim_update_policy, recording; cbn [pol_type pol_update fst snd]. destruct (pol_type pol); [| |congruence].
  - destruct (pol_update pol p a r None) as [q o]. exists q, o. auto.
  - destruct (pol_update pol p a r (Some (expand0 c))) as [q o]. exists q, o. auto.
Qed.

Definition list_call (ty : policy_type) (cs : list nd) (acts : list Z) (rews : list num) (t : nat) : call :=
  (visible ty (nth t cs (Vec [])), nth t acts 0%Z, nth t rews NaN).

Lemma deliver_ok {P} (pol : policy P) av : pol_type pol <> Offline -> forall s s',
  (forall t, In t av -> (t < length (sm_actions s))%nat /\ (t < length (sm_contexts s))%nat /\ (t < length (sm_rewards s))%nat) ->
  deliver (recording pol) s av = (s', Ok tt) ->
  exists p, s' = set_policy s (p, snd (sm_policy s) ++ map (list_call (pol_type pol) (sm_contexts s) (sm_actions s) (sm_rewards s)) av).
Proof.
  intros Ht. induction av as [|t av IH]; intros s s' Hl H; simpl in H.
  - injection H as <-. exists (fst (sm_policy s)). simpl. rewrite app_nil_r, <- surjective_pairing. destruct s; reflexivity.
  - destruct (Hl t (or_introl eq_refl)) as (L1 & L2 & L3).
    rewrite (np_get_nth _ _ 0%Z L1), (np_get_nth _ _ (Vec []) L2), (np_get_nth _ _ NaN L3) in H. cbn [bind] in H.
    destruct (sm_policy s) as [p log] eqn:Ep.
    destruct (rec_update pol p log (nth t (sm_contexts s) (Vec [])) (nth t (sm_actions s) 0%Z) (nth t (sm_rewards s) NaN) Ht) as (p' & o & E & _).
    rewrite E in H. cbn [fst snd] in H. destruct o as [[]|e]; [|discriminate].
    apply IH in H. 2:{ intros u Hu. apply Hl. right; auto. }
    destruct H as [q ->]. exists q. cbn. rewrite <- app_assoc. reflexivity.
Qed.

Record sim_inv {P} (ty : policy_type) (rs : list bround) (s : sim (P * list call)) : Prop := mkSimInv {
  iv_actions : length (sm_actions s) = length rs;
  iv_rewards : length (sm_rewards s) = length rs;
  iv_reward : forall t, (t < length rs)%nat ->
    np_get (br_rewards (nth t rs no_round)) (nth t (sm_actions s) 0%Z) = Ok (nth t (sm_rewards s) NaN);
  iv_truth : sm_truth s = map br_rewards rs;
  iv_contexts : sm_contexts s = map br_context rs;
  iv_total : sm_total s = fold_left nadd (sm_rewards s) (Fin 0);
  iv_played : sm_played s = length rs;
  iv_keys : NoDup (map fst (sm_lookup s));
  iv_ne : Forall (fun p => snd p <> []) (sm_lookup s);
  iv_get : let D := chosen_delay rs (sm_actions s) in
    forall k, lk_get (sm_lookup s) k = filter (fun t => Reqb (dkey D t) k) (undelivered D (length rs));
  iv_log : snd (sm_policy s) = map (feedback_of ty rs (sm_actions s)) (delivered_before (chosen_delay rs (sm_actions s)) (length rs)) }.

Lemma sim_new_inv {P} ty (p : P) : sim_inv ty [] (sim_new (p, [])).
Proof. constructor; simpl; auto; try constructor. intros t Ht. lia. Qed.

Lemma feedback_list_call ty rs (cs : list nd) acts rews t : cs = map br_context rs -> (t < length rs)%nat ->
  np_get (br_rewards (nth t rs no_round)) (nth t acts 0%Z) = Ok (nth t rews NaN) ->
  list_call ty cs acts rews t = feedback_of ty rs acts t.
Proof.
  intros -> Ht H. unfold list_call, feedback_of. rewrite H.
  rewrite (nth_indep _ (Vec []) (br_context no_round)) by (rewrite map_length; auto). rewrite map_nth. reflexivity.
Qed.

Lemma select_type {P} (pol : policy P) p c q a : sim_select_action pol p c = (q, Ok a) -> pol_type pol <> Offline.
Proof. unfold sim_select_action. destruct (pol_type pol); congruence. Qed.

Lemma rec_select {P} (pol : policy P) p log c :
  sim_select_action (recording pol) (p, log) c = ((fst (sim_select_action pol p c), log), snd (sim_select_action pol p c)).
Proof. unfold sim_select_action, recording; cbn [pol_type pol_select fst snd]. destruct (pol_type pol); reflexivity. Qed.

Lemma Permutation_in_nat (t : nat) l l' : Permutation l l' -> In t l -> In t l'.
Proof. apply Permutation_in. Qed.

Lemma sim_step_inv {P} (pol : policy P) rs s rd s' : sim_inv (pol_type pol) rs s ->
  sim_step (recording pol) s rd = (s', Ok tt) -> pol_type pol <> Offline /\ sim_inv (pol_type pol) (rs ++ [rd]) s' /\
  exists a, sm_actions s' = sm_actions s ++ [a] /\ snd (sim_select_action pol (fst (sm_policy s)) (br_context rd)) = Ok a.
Proof.
  intros I H. destruct I as [i1 i2 i3 i4 i5 i6 i7 i8 i9 i10 i11]. set (n := length rs) in *.
  unfold sim_step in H. destruct (sm_policy s) as [p log] eqn:Ep. rewrite rec_select in H. cbn [fst snd] in H.
  destruct (sim_select_action pol p (br_context rd)) as [p1 [a|e]] eqn:Es; cbn [fst snd] in H; [|discriminate].
  pose proof (select_type _ _ _ _ _ Es) as Ht.
  destruct (np_get (br_rewards rd) a) as [r|e] eqn:Er; [|discriminate].
  set (acts' := sm_actions s ++ [a]) in *. set (rs' := rs ++ [rd]) in *. set (D := chosen_delay rs (sm_actions s)) in *.
  set (D' := chosen_delay rs' acts').
  assert (N1 : forall t, (t < n)%nat -> nth t rs' no_round = nth t rs no_round) by (intros; apply app_nth1; auto).
  assert (N2 : forall t, (t < n)%nat -> nth t acts' 0%Z = nth t (sm_actions s) 0%Z) by (intros; apply app_nth1; rewrite i1; auto).
  assert (M1 : nth n rs' no_round = rd) by (unfold rs'; rewrite app_nth2, Nat.sub_diag; auto).
  assert (M2 : nth n acts' 0%Z = a) by (unfold acts'; rewrite app_nth2, i1, Nat.sub_diag; auto; rewrite i1; auto).
  assert (HD : forall t, (t < n)%nat -> D t = D' t) by (intros t Htn; unfold D, D', chosen_delay; rewrite N1, N2; auto).
  assert (HU : undelivered D' n = undelivered D n) by (symmetry; apply undelivered_ext; auto).
  assert (HB : delivered_before D' n = delivered_before D n) by (symmetry; apply delivered_before_ext; auto).
  assert (Hlen : length rs' = S n) by (unfold rs'; rewrite app_length; simpl; fold n; lia).
  assert (HR : forall t, (t < S n)%nat -> np_get (br_rewards (nth t rs' no_round)) (nth t acts' 0%Z) = Ok (nth t (sm_rewards s ++ [r]) NaN)).
  { intros t Htn. destruct (Nat.eq_dec t n) as [->|Hne].
    rewrite M1, M2, app_nth2, i2, Nat.sub_diag by (rewrite i2; auto). exact Er.
    rewrite N1, N2, app_nth1 by (rewrite ?i2; lia). apply i3. lia. }
  assert (HF : map (feedback_of (pol_type pol) rs (sm_actions s)) (delivered_before D n) = map (feedback_of (pol_type pol) rs' acts') (delivered_before D' n)).
  { rewrite HB. apply map_ext_in. intros t Hti. apply in_delivered_before in Hti as (u & Hu & Hti). apply delivered_le in Hti.
    unfold feedback_of. rewrite N1, N2 by lia. reflexivity. }
  assert (HK : forall k l, (forall t, In t l -> (t < n)%nat) -> filter (fun t => Reqb (dkey D t) k) l = filter (fun t => Reqb (dkey D' t) k) l).
  { intros k l Hl. apply filter_ext_in. intros t Hti. unfold dkey. rewrite HD by auto. reflexivity. }
  assert (Ltot : fold_left nadd (sm_rewards s ++ [r]) (Fin 0) = nadd (sm_total s) r) by (rewrite fold_left_app, <- i6; reflexivity).
  assert (Lr : length (sm_rewards s ++ [r]) = S n) by (rewrite app_length, i2; simpl; lia).
  assert (La : length acts' = S n) by (unfold acts'; rewrite app_length, i1; simpl; lia).
  assert (Hcon : sm_contexts s ++ [br_context rd] = map br_context rs') by (unfold rs'; rewrite map_app, i5; reflexivity).
  assert (Htru : sm_truth s ++ [br_rewards rd] = map br_rewards rs') by (unfold rs'; rewrite map_app, i4; reflexivity).
  assert (HUlt : forall t, In t (undelivered D n) -> (t < n)%nat) by (intros t Hti; apply in_undelivered in Hti; tauto).
  destruct (br_delays rd) as [dl|] eqn:Ed.
  - (* with delays *)
    destruct (np_get dl a) as [d|e] eqn:Edl; [|discriminate].
    assert (HDn : D' n = Some d) by (unfold D', chosen_delay; rewrite M1, M2, Ed, Edl; reflexivity).
    unfold delayed_update_policy in H. unfold set_lookup in H. cbn [sm_lookup sm_played sm_policy sm_actions sm_rewards sm_truth sm_contexts sm_total] in H.
    rewrite i7 in H.
    assert (HG : forall k, lk_get (lk_append (sm_lookup s) (d + INR n) n) k = filter (fun t => Reqb (dkey D' t) k) (undelivered D' n ++ [n])).
    { intros k. rewrite lk_get_append, i10, filter_app, HU, HK by auto. simpl.
      assert (EK : dkey D' n = d + INR n) by (unfold dkey; rewrite HDn; reflexivity). rewrite EK.
      destruct (Reqb (d + INR n) k); [reflexivity|rewrite app_nil_r; reflexivity]. }
    assert (HAV : lk_get (lk_append (sm_lookup s) (d + INR n) n) (INR n) = delivered_at D' n).
    { rewrite HG. apply (due_now D' n d HDn). }
    rewrite HAV in H.
    destruct (deliver (recording pol) _ (delivered_at D' n)) as [s1 o] eqn:Edv in H. cbn [fst snd] in H.
    destruct o as [[]|e]; [|discriminate]. apply deliver_ok in Edv; [|exact Ht|].
    2:{ intros t Hti. apply delivered_le in Hti. cbn [sm_actions sm_contexts sm_rewards]. fold acts'. rewrite La, Lr, Hcon, map_length, Hlen. lia. }
    destruct Edv as [q ->]. cbn in H. injection H as <-. split; [exact Ht|]. destruct (lk_append_keys (sm_lookup s) (d + INR n) n i8) as [K1 K2].
    split; [|exists a; split; [reflexivity|cbn [fst]; rewrite Es; reflexivity]]. constructor; cbn [sm_actions sm_contexts sm_rewards sm_lookup sm_policy sm_total sm_truth sm_played snd]; rewrite ?Hlen; auto.
    + apply lk_pop_keys; auto.
    + apply lk_pop_nonempty, lk_append_nonempty; auto.
    + fold acts'. fold D'. intros k. rewrite lk_get_pop by auto. rewrite HG. rewrite undelivered_S_gen.
      destruct (Reqb_spec (INR n) k) as [E|E].
      * symmetry. subst k. rewrite <- (due_now D' n d HDn). generalize (undelivered D' n ++ [n]). intros l.
        assert (G : forall l', (forall t, In t l' -> In t l) -> filter (fun t => Reqb (dkey D' t) (INR n)) (filter (fun t => negb (existsb (Nat.eqb t) (filter (fun t => Reqb (dkey D' t) (INR n)) l))) l') = []).
        { induction l' as [|x l' IH]; intros Hl; simpl; auto. destruct (existsb (Nat.eqb x) _) eqn:Ex; simpl.
          - apply IH. intros; apply Hl; right; auto.
          - destruct (Reqb (dkey D' x) (INR n)) eqn:Ek. 2: apply IH; intros; apply Hl; right; auto.
            exfalso. assert (C : In x (filter (fun t => Reqb (dkey D' t) (INR n)) l)). { apply filter_In. split; auto. apply Hl. left; auto. }
            apply existsb_In in C. congruence. }
        apply G. auto.
      * rewrite filter_filter. apply filter_ext_in. intros t Hti. destruct (Reqb_spec (dkey D' t) k) as [E'|E']; auto. simpl. symmetry. apply negb_true_iff.
        apply not_true_is_false. rewrite existsb_In. intros C. apply in_delivered_at in C. rewrite HDn in C. destruct C as [_ (d0 & C1 & C2)].
        unfold dkey in E'. rewrite C1 in E'. congruence.
    + fold acts' D'. rewrite delivered_before_S, map_app, <- HF, <- i11. cbn [snd]. f_equal. apply map_ext_in. intros t Hti. apply delivered_le in Hti.
      apply feedback_list_call; auto. rewrite Hlen. lia. apply HR. lia.
  - (* without delays *)
    destruct (rec_update pol p1 log (br_context rd) a r Ht) as (q & o & E & _). rewrite E in H. cbn in H. destruct o as [[]|e]; [|discriminate].
    injection H as <-. split; [exact Ht|]. assert (HDn : D' n = None) by (unfold D', chosen_delay; rewrite M1, Ed; reflexivity).
    split; [|exists a; split; [reflexivity|cbn [fst]; rewrite Es; reflexivity]]. constructor; cbn [sm_actions sm_contexts sm_rewards sm_lookup sm_policy sm_total sm_truth sm_played snd]; rewrite ?Hlen; auto.
    + fold acts' D'. intros k. rewrite undelivered_None by auto. rewrite i10, HU. apply HK; auto.
    + fold acts' D'. rewrite delivered_before_S, map_app, <- HF, <- i11. cbn [snd]. f_equal.
      unfold delivered_at. rewrite HDn. simpl. unfold feedback_of. rewrite M1, M2, Er. reflexivity.
Qed.

Lemma sim_steps_inv {P} (pol : policy P) rs : forall rs0 s s', sim_inv (pol_type pol) rs0 s ->
  sim_steps (recording pol) s rs = (s', Ok tt) -> sim_inv (pol_type pol) (rs0 ++ rs) s'.
Proof.
  induction rs as [|rd rs IH]; intros rs0 s s' I H; simpl in H. injection H as <-. rewrite app_nil_r. auto.
  destruct (sim_step (recording pol) s rd) as [s1 [[]|e]] eqn:E; cbn [fst snd] in H; [|discriminate].
  destruct (sim_step_inv pol rs0 s rd s1 I E) as (_ & I1 & _). replace (rs0 ++ rd :: rs) with ((rs0 ++ [rd]) ++ rs) by (rewrite <- app_assoc; reflexivity).
  apply (IH _ _ _ I1 H).
Qed.

Lemma sim_steps_type {P} (pol : policy P) rd rs s s' :
  sim_steps (recording pol) s (rd :: rs) = (s', Ok tt) -> pol_type pol <> Offline.
Proof.
  simpl. destruct (sim_step (recording pol) s rd) as [s1 [[]|e]] eqn:E; cbn [fst snd]; [|discriminate]. intros _ Ht.
  unfold sim_step, sim_select_action in E. cbn [recording pol_type] in E. rewrite Ht in E. simpl in E. discriminate.
Qed.

Lemma clear_loop_ok {P} (pol : policy P) items : pol_type pol <> Offline -> forall s s',
  sm_lookup s = items -> NoDup (map fst items) ->
  (forall t, In t (concat (map snd items)) -> (t < length (sm_actions s))%nat /\ (t < length (sm_contexts s))%nat /\ (t < length (sm_rewards s))%nat) ->
  clear_loop (recording pol) s items = (s', Ok tt) ->
  exists p, s' = set_lookup (set_policy s (p, snd (sm_policy s) ++ map (list_call (pol_type pol) (sm_contexts s) (sm_actions s) (sm_rewards s)) (concat (map snd items)))) [].
Proof.
  intros Ht. induction items as [|[k av] items IH]; intros s s' Hl Hn Hv H; simpl in H.
  - injection H as <-. exists (fst (sm_policy s)). simpl. rewrite app_nil_r, <- surjective_pairing, <- Hl. destruct s; reflexivity.
  - unfold delayed_update_policy in H. destruct (deliver (recording pol) s av) as [s1 [[]|e]] eqn:E; cbn [fst snd] in H; [|discriminate].
    apply deliver_ok in E; auto. 2:{ intros t Hti. apply Hv. simpl. apply in_app_iff; auto. }
    destruct E as [p ->]. inversion Hn; subst.
    apply IH in H; auto.
    + destruct H as [q ->]. exists q. cbn. rewrite map_app, <- app_assoc. reflexivity.
    + cbn. rewrite Hl. simpl. destruct (Reqb_spec k k); congruence.
    + cbn. intros t Hti. apply Hv. simpl. apply in_app_iff; auto.
Qed.

(** ** Recording is transparent *)
Lemma rec_deliver {P} (pol : policy P) av : forall s log, exists log',
  deliver (recording pol) (with_log s log) av = (with_log (fst (deliver pol s av)) log', snd (deliver pol s av)).
Proof.
  induction av as [|t av IH]; intros s log. exists log. reflexivity.
  simpl. destruct (np_get (sm_actions s) (Z.of_nat t)) as [a|e]; cbn [bind]; [|eexists; reflexivity].
  destruct (np_get (sm_contexts s) (Z.of_nat t)) as [n|e]; cbn [bind]; [|eexists; reflexivity].
  destruct (np_get (sm_rewards s) (Z.of_nat t)) as [n0|e]; cbn [bind]; [|eexists; reflexivity].
  assert (U : exists log', sim_update_policy (recording pol) (sm_policy s, log) n a n0 =
     ((fst (sim_update_policy pol (sm_policy s) n a n0), log'), snd (sim_update_policy pol (sm_policy s) n a n0))).
  { unfold sim_update_policy. cbn [recording pol_type pol_update fst snd]. destruct (pol_type pol); eexists; reflexivity. }
  destruct U as [log1 ->]. destruct (sim_update_policy pol (sm_policy s) n a n0) as [q [[]|e]]; cbn [fst snd].
  - destruct (IH (set_policy s q) log1) as [l2 E]. exists l2. exact E.
  - exists log1. reflexivity.
Qed.

Lemma rec_delayed {P} (pol : policy P) s log av k : exists log',
  delayed_update_policy (recording pol) (with_log s log) av k = (with_log (fst (delayed_update_policy pol s av k)) log', snd (delayed_update_policy pol s av k)).
Proof.
  unfold delayed_update_policy. destruct (rec_deliver pol av s log) as [l E]. rewrite E. exists l. cbn [fst snd].
  destruct (deliver pol s av) as [s1 [[]|e]]; reflexivity.
Qed.

Lemma rec_step {P} (pol : policy P) s log rd : exists log',
  sim_step (recording pol) (with_log s log) rd = (with_log (fst (sim_step pol s rd)) log', snd (sim_step pol s rd)).
Proof.
  unfold sim_step. cbn [with_log sm_policy]. rewrite rec_select. cbn [fst snd].
  destruct (sim_select_action pol (sm_policy s) (br_context rd)) as [p1 [a|e]]; cbn [fst snd]; [|eexists; reflexivity].
  destruct (np_get (br_rewards rd) a) as [r|e]; [|eexists; reflexivity].
  destruct (br_delays rd) as [dl|].
  - destruct (np_get dl a) as [d|e]; [|exists log; reflexivity].
    cbn [sm_lookup sm_actions sm_rewards sm_truth sm_contexts sm_total sm_played set_lookup].
    match goal with |- context[delayed_update_policy pol ?s0 ?av ?k] => destruct (rec_delayed pol s0 log av k) as [l E] end.
    unfold set_lookup in *. cbn [sm_lookup sm_actions sm_rewards sm_truth sm_contexts sm_total sm_played sm_policy with_log] in *.
    unfold with_log in E at 1. cbn [sm_lookup sm_actions sm_rewards sm_truth sm_contexts sm_total sm_played sm_policy with_log] in E.
    rewrite E. exists l. cbn [fst snd].
    match goal with |- context[delayed_update_policy pol ?s0 ?av ?k] => destruct (delayed_update_policy pol s0 av k) as [s2 [[]|e]] end; reflexivity.
  - assert (U : exists log', sim_update_policy (recording pol) (p1, log) (br_context rd) a r =
     ((fst (sim_update_policy pol p1 (br_context rd) a r), log'), snd (sim_update_policy pol p1 (br_context rd) a r))).
    { unfold sim_update_policy. cbn [recording pol_type pol_update fst snd]. destruct (pol_type pol); eexists; reflexivity. }
    destruct U as [log1 ->]. exists log1. cbn [fst snd].
    destruct (sim_update_policy pol p1 (br_context rd) a r) as [q [[]|e]]; reflexivity.
Qed.

Lemma rec_steps {P} (pol : policy P) rs : forall s log, exists log',
  sim_steps (recording pol) (with_log s log) rs = (with_log (fst (sim_steps pol s rs)) log', snd (sim_steps pol s rs)).
Proof.
  induction rs as [|rd rs IH]; intros s log. exists log. reflexivity. simpl.
  destruct (rec_step pol s log rd) as [l E]. rewrite E. cbn [fst snd].
  destruct (sim_step pol s rd) as [s1 [[]|e]]; cbn [fst snd]. apply IH. exists l. reflexivity.
Qed.
Lemma rec_clear_loop {P} (pol : policy P) items : forall s log, exists log',
  clear_loop (recording pol) (with_log s log) items = (with_log (fst (clear_loop pol s items)) log', snd (clear_loop pol s items)).
Proof.
  induction items as [|[k av] items IH]; intros s log. exists log. reflexivity. simpl.
  destruct (rec_delayed pol s log av k) as [l E]. rewrite E. cbn [fst snd].
  destruct (delayed_update_policy pol s av k) as [s1 [[]|e]]; cbn [fst snd]. apply IH. exists l. reflexivity.
Qed.

(** ** Progress *)
Lemma np_get_valid {A} (l : list A) (a : Z) : (- Z.of_nat (length l) <= a < Z.of_nat (length l))%Z -> exists x, np_get l a = Ok x.
Proof.
  intros H. unfold np_get. cbv zeta.
  set (i := if Z.ltb a 0 then (a + Z.of_nat (length l))%Z else a).
  assert (Hi : (0 <= i < Z.of_nat (length l))%Z) by (unfold i; destruct (Z.ltb_spec a 0); lia).
  destruct (Z.leb_spec 0 i); [|lia]. destruct (Z.ltb_spec i (Z.of_nat (length l))); [|lia]. cbn [andb].
  destruct (nth_error l (Z.to_nat i)) eqn:E; [eauto|].
  exfalso. rewrite nth_error_None in E. lia.
Qed.

Lemma total_update {P} K (pol : policy P) p c a r : total_policy K pol -> snd (sim_update_policy pol p c a r) = Ok tt.
Proof. intros (H1 & H2 & H3). unfold sim_update_policy. destruct (pol_type pol); auto. Qed.

Lemma total_deliver {P} K (pol : policy P) av : total_policy K pol -> forall s,
  (forall t, In t av -> (t < length (sm_actions s))%nat /\ (t < length (sm_contexts s))%nat /\ (t < length (sm_rewards s))%nat) ->
  snd (deliver pol s av) = Ok tt.
Proof.
  intros T. induction av as [|t av IH]; intros s Hl; simpl; auto.
  destruct (Hl t (or_introl eq_refl)) as (L1 & L2 & L3).
  rewrite (np_get_nth _ _ 0%Z L1), (np_get_nth _ _ (Vec []) L2), (np_get_nth _ _ NaN L3). cbn [bind].
  rewrite (total_update K) by auto. apply IH. intros u Hu. apply Hl. right; auto.
Qed.

Lemma recording_total {P} K (pol : policy P) : total_policy K pol -> total_policy K (recording pol).
Proof.
  intros (H1 & H2 & H3). split; [exact H1|split].
  - intros [p log] c. destruct (H2 p c) as (a & l & E & Ha). exists a, l. split; auto.
  - intros [p log] a r c. apply H3.
Qed.

Lemma lk_get_sub l k t : In t (lk_get l k) -> In t (concat (map snd l)).
Proof.
  induction l as [|[k0 vs] l IH]; simpl; auto. destruct (Reqb k0 k); intros H; apply in_app_iff; auto.
Qed.

Lemma total_step {P} K (pol : policy P) rs s rd : total_policy K pol -> shaped_round K rd ->
  sim_inv (pol_type pol) rs s -> snd (sim_step (recording pol) s rd) = Ok tt.
Proof.
  intros T [R1 R2] I. pose proof (recording_total K pol T) as T'. destruct I as [i1 i2 i3 i4 i5 i6 i7 i8 i9 i10 i11].
  unfold sim_step.
  assert (S1 : exists p a, sim_select_action (recording pol) (sm_policy s) (br_context rd) = (p, Ok a) /\ (- Z.of_nat K <= a < Z.of_nat K)%Z).
  { unfold sim_select_action. destruct T' as (T1 & T2 & _). destruct (pol_type (recording pol)); [| |congruence].
    - destruct (T2 (sm_policy s) None) as (a & l & E & Ha). cbv zeta. rewrite E. cbn [bind]. eexists. exists a. split; [reflexivity|auto].
    - destruct (T2 (sm_policy s) (Some (expand0 (br_context rd)))) as (a & l & E & Ha). cbv zeta. rewrite E. cbn [bind]. eexists. exists a. split; [reflexivity|auto]. }
  destruct S1 as (p & a & E & Ha). rewrite E. cbn [fst snd].
  destruct (np_get_valid (br_rewards rd) a) as [r Er]; [rewrite R1; auto|]. rewrite Er.
  destruct (br_delays rd) as [dl|] eqn:Ed.
  - destruct (np_get_valid dl a) as [d Edl]; [rewrite R2; auto|]. rewrite Edl.
    unfold delayed_update_policy. rewrite (total_deliver K); auto.
    cbn [set_lookup sm_lookup sm_actions sm_rewards sm_truth sm_contexts sm_total sm_played sm_policy].
    intros t Hti. rewrite lk_get_append, i10 in Hti. rewrite i5, !app_length, map_length, i1, i2. simpl.
    assert (t <= length rs)%nat.
    { destruct (Reqb _ _) in Hti. apply in_app_iff in Hti as [Hti|[Hti|[]]]. apply filter_In in Hti as [Hti _]. apply in_undelivered in Hti. lia. lia.
      apply filter_In in Hti as [Hti _]. apply in_undelivered in Hti. lia. }
    lia.
  - rewrite (total_update K) by auto. reflexivity.
Qed.

Lemma total_steps {P} K (pol : policy P) rs : total_policy K pol -> (forall rd, In rd rs -> shaped_round K rd) ->
  forall rs0 s, sim_inv (pol_type pol) rs0 s -> snd (sim_steps (recording pol) s rs) = Ok tt.
Proof.
  intros T. induction rs as [|rd rs IH]; intros Hs rs0 s I; simpl; auto.
  pose proof (total_step K pol rs0 s rd T (Hs rd (or_introl eq_refl)) I) as E. rewrite E.
  destruct (sim_step_inv pol rs0 s rd (fst (sim_step (recording pol) s rd)) I) as (_ & I' & _).
  rewrite <- E. apply surjective_pairing. apply (IH (fun r Hr => Hs r (or_intror Hr)) _ _ I').
Qed.

Lemma total_clear_loop {P} K (pol : policy P) items : total_policy K pol -> forall s,
  (forall t, In t (concat (map snd items)) -> (t < length (sm_actions s))%nat /\ (t < length (sm_contexts s))%nat /\ (t < length (sm_rewards s))%nat) ->
  snd (clear_loop pol s items) = Ok tt.
Proof.
  intros T. induction items as [|[k av] items IH]; intros s Hl; simpl; auto.
  unfold delayed_update_policy. pose proof (total_deliver K pol av T s) as E.
  assert (F : forall av s, sm_actions (fst (deliver pol s av)) = sm_actions s /\ sm_contexts (fst (deliver pol s av)) = sm_contexts s /\ sm_rewards (fst (deliver pol s av)) = sm_rewards s).
  { clear. induction av as [|t av IH]; intros s; simpl; auto. destruct (a <- np_get (sm_actions s) (Z.of_nat t);; _) as [[[a c] r]|e]; cbn; auto.
    destruct (snd (sim_update_policy pol (sm_policy s) c a r)); cbn [fst]; auto.
    destruct (IH (set_policy s (fst (sim_update_policy pol (sm_policy s) c a r)))) as (-> & -> & ->). auto. }
  rewrite E. 2:{ intros t Hti. apply Hl. simpl. apply in_app_iff; auto. } cbn [fst snd]. apply IH. cbn. destruct (F av s) as (-> & -> & ->).
  intros t Hti. apply Hl. simpl. apply in_app_iff; auto.
Qed.
