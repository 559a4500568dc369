(** * L_Ctor: lemmas about dynamically checked arguments. *)

From Coq Require Import String Reals List ZArith Bool Lia Lra.
From Verif Require Import Num NpList M_Utils M_Init M_Policy M_Linear M_Logistic M_Reg M_SlateData M_Ctor S_Base S_Init S_Ctor
  L_Num L_Init.
Import ListNotations.
Open Scope R_scope.

(** ** Acceptance *)

Lemma int_ge_iff lo v : check_scalar_v v is_int (Some (Fin (IZR lo))) None = Ok tt <-> int_ge lo v (int_of v).
Proof.
  rewrite int_min. unfold int_from, int_ge. split.
  - intros (z & H & Hz). rewrite (integer_int_of v z H). auto.
  - intros [H Hz]. eauto.
Qed.

Lemma int_range_iff lo hi v : check_scalar_v v is_int (Some (Fin (IZR lo))) (Some (Fin (IZR hi))) = Ok tt <-> int_range lo hi v (int_of v).
Proof.
  rewrite check_v_iff, is_int_iff, check_minmax_iff. unfold int_range. split.
  - intros [(z & H) [E|(r & E & Hr)]].
    + rewrite (integer_num v z H) in E. discriminate.
    + rewrite (integer_num v z H) in E. injection E as <-. rewrite (integer_int_of v z H). split; auto. destruct Hr. split; apply le_IZR; auto.
  - intros [H [H1 H2]]. split; [eauto|]. right. exists (IZR (int_of v)). rewrite (integer_num v _ H). split; auto. split; apply IZR_le; auto.
Qed.

Lemma int_any_iff v : check_scalar_v v is_int None None = Ok tt <-> integer v (int_of v).
Proof.
  rewrite check_v_iff, is_int_iff. split.
  - intros [(z & H) _]. rewrite (integer_int_of v z H). auto.
  - intros H. split; eauto.
Qed.

Lemma number_any_iff v : check_scalar_v v is_number None None = Ok tt <-> number v (num_of v).
Proof.
  rewrite check_v_iff, is_number_iff. split.
  - intros [(x & H) _]. rewrite (number_num v x H). auto.
  - intros H. split; eauto.
Qed.

Lemma number_ge_iff lo v : check_scalar_v v is_number (Some (Fin lo)) None = Ok tt <-> number v (num_of v) /\ or_nan (at_least lo) (num_of v).
Proof.
  rewrite check_v_iff, is_number_iff, check_min_iff. split.
  - intros [(x & H) Hx]. rewrite (number_num v x H) in *. auto.
  - intros [H Hx]. split; eauto.
Qed.

Lemma int_ge_fun lo v z : int_ge lo v z -> int_of v = z.
Proof. intros [H _]. apply integer_int_of; auto. Qed.
Lemma int_range_fun lo hi v z : int_range lo hi v z -> int_of v = z.
Proof. intros [H _]. apply integer_int_of; auto. Qed.
Lemma int_range_ge lo hi v z : int_range lo hi v z <-> int_ge lo v z /\ (z <= hi)%Z.
Proof. unfold int_range, int_ge. intuition lia. Qed.

Lemma random_state_iff v : random_state_ok v = Ok tt <-> generator v.
Proof.
  unfold generator, seed_integer. destruct v; simpl.
  - tauto.
  - split; [|auto]. intros _. right. right. exists (if b then 1 else 0)%Z. split; [left; constructor|destruct b; lia].
  - rewrite raise_ok, orb_false_iff, Z.ltb_ge, Z.leb_gt. split.
    + intros H. right. right. exists z. split; [left; constructor|lia].
    + intros [H|[H|(z' & [H|H] & Hz)]]; try discriminate. apply integer_int_of in H. simpl in H. subst. lia.
  - split; [discriminate|]. intros [H|[H|(z' & [H|H] & Hz)]]; try discriminate. inversion H.
  - split; [discriminate|]. intros [H|[H|(z' & [H|H] & Hz)]]; try discriminate. inversion H.
  - split; [discriminate|]. intros [H|[H|(z' & [H|H] & Hz)]]; try discriminate. inversion H.
  - split; [discriminate|]. intros [H|[H|(z' & [H|H] & Hz)]]; try discriminate. inversion H.
  - split; [discriminate|]. intros [H|[H|(z' & [H|H] & Hz)]]; try discriminate. inversion H.
  - rewrite raise_ok, orb_false_iff, Z.ltb_ge, Z.leb_gt. split.
    + intros H. right. right. exists z. split; [right; reflexivity|lia].
    + intros [H|[H|(z' & [H|H] & Hz)]]; try discriminate; [inversion H|]. injection H as ->. lia.
  - split; [discriminate|]. intros [H|[H|(z' & [H|H] & Hz)]]; try discriminate. inversion H.
  - tauto.
  - split; [discriminate|]. intros [H|[H|(z' & [H|H] & Hz)]]; try discriminate. inversion H.
Qed.

Lemma random_given_iff v : random_state_given v = Ok tt <-> given_generator v.
Proof.
  assert (G : given_generator v <-> generator v /\ v <> VNone).
  { unfold given_generator, generator. split.
    - intros [->|(z & H)]; (split; [eauto|]); [discriminate|]. intros ->. destruct H as [[H|H] _]; [inversion H|discriminate].
    - intros [[->|[H|H]] Hn]; [congruence|auto|auto]. }
  rewrite G, <- random_state_iff. unfold random_state_given. destruct v; simpl; split; intros H; try (split; [auto|discriminate]); try tauto.
Qed.

Lemma truthy_iff v : truthy v = false <-> falsy v.
Proof.
  unfold falsy. split.
  - destruct v; simpl; try discriminate; intros H.
    + auto.
    + subst. auto 12.
    + apply negb_false_iff, Z.eqb_eq in H. subst. auto 12.
    + destruct x as [r| | |]; simpl in H; try discriminate. unfold Reqb in H. destruct (Req_EM_T r 0); [|discriminate]. subst. auto 12.
    + apply negb_false_iff, String.eqb_eq in H. subst. auto 12.
    + destruct l; [auto 12|discriminate].
    + destruct l; [auto 12|discriminate].
    + destruct d; [auto 14|discriminate].
    + apply negb_false_iff, Z.eqb_eq in H. subst. auto 12.
    + subst. auto 12.
  - intros H. repeat (destruct H as [<-|H]; [try reflexivity|]); [|destruct H]. simpl. unfold Reqb. destruct (Req_EM_T 0 0); [reflexivity|congruence].
Qed.

Lemma exploration_iff (ucb : bool) v : check_scalar_v v is_float (Some (Fin 0)) (if ucb then None else Some (Fin 1)) = Ok tt <-> exploration ucb v.
Proof. unfold exploration. destruct ucb; [apply float_min|apply float_minmax]. Qed.

Lemma positive_iff v : check_scalar_v v is_float None None = Ok tt /\ nle (num_of v) (Fin 0) = false <-> positive_float v (num_of v).
Proof.
  rewrite float_above. unfold float_in, positive_float. split; [|intros [E H]; eauto].
  intros (x & -> & H). simpl. auto.
Qed.

Lemma copies {A} (c : res A) m n l : c = Ok m -> mapM (fun _ : nat => c) (seq 0 n) = Ok l <-> l = repeat m n.
Proof.
  intros ->. assert (E : forall s, mapM (fun _ : nat => Ok m) (seq s n) = Ok (repeat m n)).
  { induction n as [|n IH]; intros s; simpl; auto. rewrite IH. reflexivity. }
  rewrite E. split; congruence.
Qed.

Lemma estimator_iff m : negb (is_estimator m) = false <-> estimator m.
Proof. unfold estimator. rewrite negb_false_iff. destruct m; simpl; split; try discriminate; eauto; intros (c & E); discriminate. Qed.
Lemma classifier_iff m : negb (is_classifier m) = false <-> classifier m.
Proof.
  unfold classifier. rewrite negb_false_iff. destruct m; simpl; split; try discriminate; try (intros ->; eauto).
  - intros [E|(p & E)]; congruence.
  - intros [E|(p & E)]; congruence.
  - intros [E|(p & E)]; discriminate.
Qed.
Lemma clone_iff m m' : clone m = Ok m' <-> copyable m /\ m' = m.
Proof.
  unfold copyable, estimator. destruct m as [c|c [|]|]; simpl; split; try discriminate; try (intros E; injection E as <-; eauto);
    try (intros [_ ->]; reflexivity).
  - intros [[(c' & E)|(c' & E)] _]; discriminate.
  - intros [[(c' & E)|(c' & E)] _]; discriminate.
Qed.

Lemma reward_type_iff v b : reward_type_of v = Ok b <-> v = VStr (reward_name b).
Proof.
  unfold reward_type_of. split.
  - destruct (is_str "binary" v) eqn:E; [intros H; injection H as <-; apply is_str_iff; auto|].
    destruct (is_str "continuous" v) eqn:E'; [intros H; injection H as <-; apply is_str_iff; auto|discriminate].
  - intros ->. destruct b; reflexivity.
Qed.

Lemma features_iff ac K : check_action_context ac K = Ok tt <-> features_for K ac.
Proof.
  unfold features_for. destruct ac as [|nd r|]; cbn [check_action_context].
  - split; auto.
  - rewrite seq_ok, !raise_ok, !negb_false_iff, Nat.eqb_eq, Z.eqb_eq. split.
    + intros [-> H]. eauto.
    + intros [E|(r' & E & H)]; [discriminate|]. injection E as -> ->. auto.
  - split; [discriminate|]. intros [E|(r & E & _)]; discriminate.
Qed.

(** ** Rejections *)

Definition refused {A} (r : res A) : Prop := forall e, r = Err e -> e = TypeError \/ e = ValueError.

Lemma refused_ok {A} (a : A) : refused (Ok a). Proof. intros e E. discriminate. Qed.
Lemma refused_value {A} : refused (@Err A ValueError). Proof. intros e E. injection E as <-. auto. Qed.
Lemma refused_type {A} : refused (@Err A TypeError). Proof. intros e E. injection E as <-. auto. Qed.
Lemma refused_bind {A B} (r : res A) (k : A -> res B) : refused r -> (forall a, r = Ok a -> refused (k a)) -> refused (bind r k).
Proof. intros H Hk. destruct r as [a|e]; cbn [bind]; [apply Hk; auto|]. intros e' E. injection E as <-. apply H. auto. Qed.
Lemma refused_raise b e : e = TypeError \/ e = ValueError -> refused (raise_if b e).
Proof. intros H e' E. destruct b; [|discriminate]. injection E as <-. auto. Qed.
Lemma refused_scalar v ty mn mx : refused (check_scalar_v v ty mn mx).
Proof.
  unfold check_scalar_v. apply refused_bind; [apply refused_raise; auto|]. intros _ _. unfold check_scalar.
  apply refused_bind; [destruct mn|intros _ _; destruct mx]; try apply refused_ok; apply refused_raise; auto.
Qed.
Lemma refused_state v : refused (random_state_ok v).
Proof. destruct v; simpl; try apply refused_ok; try apply refused_value; apply refused_raise; auto. Qed.
Lemma refused_given v : refused (random_state_given v).
Proof. destruct v; try apply refused_value; apply refused_state. Qed.
Lemma refused_mapM {A B} (f : A -> res B) l : (forall a, In a l -> refused (f a)) -> refused (mapM f l).
Proof.
  induction l as [|a l IH]; intros H; cbn [mapM]; [apply refused_ok|]. apply refused_bind; [apply H; left; auto|]. intros b _.
  apply refused_bind; [apply IH; intros; apply H; right; auto|]. intros; apply refused_ok.
Qed.
Lemma refused_clone m : refused (clone m).
Proof. destruct m as [c|c [|]|]; simpl; try apply refused_ok; apply refused_type. Qed.
Lemma refused_features ac K : refused (check_action_context ac K).
Proof.
  destruct ac; cbn [check_action_context]; [apply refused_ok| |apply refused_value].
  apply refused_bind; [apply refused_raise; auto|]. intros; apply refused_raise; auto.
Qed.
Lemma refused_reward v : refused (reward_type_of v).
Proof. unfold reward_type_of. destruct (is_str _ v); [apply refused_ok|]. destruct (is_str _ v); [apply refused_ok|apply refused_value]. Qed.
Lemma refused_int x mn mx : refused (check_scalar_Z x mn mx).
Proof.
  unfold check_scalar_Z. apply refused_bind; [destruct mn|intros _ _; destruct mx]; try apply refused_ok; apply refused_raise; auto.
Qed.
Create HintDb refuse.
#[export] Hint Resolve refused_ok refused_value refused_type refused_raise refused_scalar refused_state refused_given refused_clone
  refused_features refused_reward refused_int : refuse.
#[export] Hint Extern 1 (_ \/ _) => (left; reflexivity) : refuse.
#[export] Hint Extern 1 (_ \/ _) => (right; reflexivity) : refuse.
Ltac refuse := first [solve [auto with refuse] | apply refused_mapM; intros; refuse | apply refused_bind; [refuse|intros ? _; refuse]].
