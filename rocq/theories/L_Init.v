(** * L_Init: the constructor checks accept exactly the documented values. *)

From Coq Require Import String Reals List ZArith Bool Lia Lra.
From Verif Require Import Num NpList M_Utils M_Tuning M_Init S_Init L_Num.
Import ListNotations.
Open Scope R_scope.

Lemma seq_ok {A} (a : res unit) (b : res A) x : (a ;;; b) = Ok x <-> a = Ok tt /\ b = Ok x.
Proof. destruct a as [[]|e]; simpl; split; [auto|tauto|discriminate|intros [H _]; discriminate]. Qed.
Lemma bind_ok {A B} (a : res A) (k : A -> res B) y : bind a k = Ok y <-> exists x, a = Ok x /\ k x = Ok y.
Proof. destruct a; simpl; split; [eauto|intros (x & E & H); injection E as ->; auto|discriminate|intros (x & E & _); discriminate]. Qed.
Lemma raise_ok b e : raise_if b e = Ok tt <-> b = false.
Proof. destruct b; simpl; split; congruence. Qed.

Lemma is_int_iff v : is_int v = true <-> exists z, integer v z.
Proof.
  split.
  - destruct v; simpl; try discriminate; intros _; eexists; constructor.
  - intros (z & H). destruct H; reflexivity.
Qed.
Lemma integer_num v z : integer v z -> num_of v = Fin (IZR z).
Proof. destruct 1 as [|[]]; reflexivity. Qed.
Lemma integer_int_of v z : integer v z -> int_of v = z.
Proof. destruct 1 as [|[]]; reflexivity. Qed.
Lemma integer_fun v z z' : integer v z -> integer v z' -> z = z'.
Proof. intros H H'. apply integer_int_of in H, H'. congruence. Qed.
Lemma is_bool_iff v : negb (is_bool v) = false <-> flag v.
Proof. split; [destruct v; simpl; try discriminate; intros; eexists; reflexivity|intros [b ->]; reflexivity]. Qed.
Lemma is_str_iff s v : is_str s v = true <-> v = VStr s.
Proof.
  split; [|intros ->; simpl; apply String.eqb_refl]. destruct v; simpl; try discriminate. intros H.
  apply String.eqb_eq in H. subst. reflexivity.
Qed.
Lemma in_strs_iff l v : negb (in_strs l v) = false <-> one_of l v.
Proof.
  rewrite negb_false_iff. unfold in_strs, one_of. rewrite existsb_exists. split; intros (s & H & E); exists s; split; auto; apply is_str_iff; auto.
Qed.

Lemma is_number_iff v : is_number v = true <-> exists x, number v x.
Proof.
  unfold is_number. rewrite orb_true_iff, is_int_iff. split.
  - intros [(z & H)|H]; [eexists; constructor; eauto|]. destruct v; simpl in H; try discriminate. eexists; apply number_float.
  - intros (x & H). destruct H; [left; eauto|right; reflexivity].
Qed.
Lemma number_num v x : number v x -> num_of v = x.
Proof. destruct 1; [apply integer_num; auto|reflexivity]. Qed.
Lemma number_fun v x y : number v x -> number v y -> x = y.
Proof. intros H H'. apply number_num in H, H'. congruence. Qed.

Lemma check_min_iff x lo : check_scalar x (Some (Fin lo)) None = Ok tt <-> or_nan (at_least lo) x.
Proof.
  unfold check_scalar. rewrite seq_ok, raise_ok. unfold or_nan, at_least. destruct x as [r| | |]; simpl.
  - rewrite Rltb_false. split; [intros [H _]; right; right; eauto|]. intros [H|[H|(r' & E & H)]]; try discriminate. injection E as ->. auto.
  - tauto.
  - split; [intros [H _]; discriminate|intros [H|[H|(r' & E & H)]]; discriminate].
  - tauto.
Qed.
Lemma check_minmax_iff x lo hi : check_scalar x (Some (Fin lo)) (Some (Fin hi)) = Ok tt <-> or_nan (between lo hi) x.
Proof.
  unfold check_scalar. rewrite seq_ok, !raise_ok. unfold or_nan, between. destruct x as [r| | |]; simpl.
  - rewrite !Rltb_false. split; [intros [H H']; right; eauto|]. intros [H|(r' & E & H)]; try discriminate. injection E as ->. tauto.
  - split; [intros [_ H]; discriminate|intros [H|(r' & E & H)]; discriminate].
  - split; [intros [H _]; discriminate|intros [H|(r' & E & H)]; discriminate].
  - tauto.
Qed.
Lemma above_iff x lo : nle x (Fin lo) = false <-> or_nan (above lo) x.
Proof.
  unfold or_nan, above. destruct x as [r| | |]; simpl.
  - rewrite Rleb_false. split; [intros H; right; right; eauto|]. intros [H|[H|(r' & E & H)]]; try discriminate. injection E as ->. auto.
  - tauto.
  - split; [discriminate|intros [H|[H|(r' & E & H)]]; discriminate].
  - tauto.
Qed.

Lemma check_v_iff v ty mn mx : check_scalar_v v ty mn mx = Ok tt <-> ty v = true /\ check_scalar (num_of v) mn mx = Ok tt.
Proof. unfold check_scalar_v. rewrite seq_ok, raise_ok, negb_false_iff. tauto. Qed.

Lemma float_min v lo : check_scalar_v v is_float (Some (Fin lo)) None = Ok tt <-> float_in (or_nan (at_least lo)) v.
Proof.
  rewrite check_v_iff, check_min_iff. unfold float_in. split.
  - intros [H1 H2]. destruct v; simpl in H1; try discriminate. eauto.
  - intros (x & -> & H). simpl. auto.
Qed.
Lemma float_minmax v lo hi : check_scalar_v v is_float (Some (Fin lo)) (Some (Fin hi)) = Ok tt <-> float_in (or_nan (between lo hi)) v.
Proof.
  rewrite check_v_iff, check_minmax_iff. unfold float_in. split.
  - intros [H1 H2]. destruct v; simpl in H1; try discriminate. eauto.
  - intros (x & -> & H). simpl. auto.
Qed.
Lemma float_above v lo : check_scalar_v v is_float None None = Ok tt /\ nle (num_of v) (Fin lo) = false <-> float_in (or_nan (above lo)) v.
Proof.
  rewrite check_v_iff, above_iff. unfold float_in. split.
  - intros [[H1 _] H2]. destruct v; simpl in H1; try discriminate. eauto.
  - intros (x & -> & H). simpl. auto.
Qed.
Lemma float_frac v : check_scalar_v v is_float None (Some (Fin 1)) = Ok tt /\ nle (num_of v) (Fin 0) = false
  <-> float_in (or_nan (fun x => between 0 1 x /\ x <> Fin 0)) v.
Proof.
  rewrite check_v_iff. unfold float_in. split.
  - intros [[H1 H2] H3]. destruct v as [| | |x| | | | | | | |]; simpl in H1; try discriminate. exists x. split; auto.
    unfold check_scalar in H2. simpl in H2. rewrite raise_ok in H2. simpl in H3. destruct x as [r| | |]; simpl in *; try discriminate; [right|left; auto].
    apply Rltb_false in H2. apply Rleb_false in H3. split; [exists r; split; auto; lra|]. intros E. injection E as ->. lra.
  - intros (x & -> & [->|[(r & -> & H) Hn]]); simpl; auto. assert (r <> 0) by congruence. unfold check_scalar. simpl.
    rewrite (proj2 (Rltb_false 1 r)), (proj2 (Rleb_false r 0)) by lra. auto.
Qed.
Lemma int_min v (lo : Z) : check_scalar_v v is_int (Some (Fin (IZR lo))) None = Ok tt <-> int_from lo v.
Proof.
  rewrite check_v_iff, is_int_iff, check_min_iff. unfold int_from. split.
  - intros [(z & Hz) H]. exists z. split; auto. rewrite (integer_num v z Hz) in H. destruct H as [H|[H|(r & E & H)]]; try discriminate.
    injection E as <-. apply le_IZR. auto.
  - intros (z & Hz & H). split; [eauto|]. rewrite (integer_num v z Hz). right. right. exists (IZR z). split; auto. apply IZR_le. auto.
Qed.
Lemma batch_iff v : negb (batch_ok v) = false <-> v = VStr "auto" \/ int_from 1 v.
Proof.
  rewrite negb_false_iff. unfold batch_ok. rewrite orb_true_iff, is_str_iff, andb_true_iff, negb_true_iff, is_int_iff. unfold int_from. split.
  - intros [H|[(z & Hz) H]]; [left; auto|right]. exists z. split; auto. rewrite (integer_num v z Hz) in H. simpl in H. apply Rleb_false in H.
    apply lt_IZR in H. lia.
  - intros [H|(z & Hz & H)]; [left; auto|right]. split; eauto. rewrite (integer_num v z Hz). simpl. apply Rleb_false. apply IZR_lt. lia.
Qed.
Lemma seed_iff v : check_seed v = Ok tt <-> seed v.
Proof.
  unfold seed, flag. destruct v; simpl; try (split; [discriminate|intros [H|[(b' & H)|(z' & [H|H] & _)]]; discriminate]).
  - tauto.
  - split; [|auto]. intros _. right. left. eauto.
  - rewrite raise_ok, orb_false_iff, Z.ltb_ge, Z.leb_gt. change (Z.pow_pos 2 32) with 4294967296%Z. split.
    + intros H. right. right. exists z. auto.
    + intros [H|[(b' & H)|(z' & [H|H] & H')]]; try discriminate. injection H as ->. auto.
  - rewrite raise_ok, orb_false_iff, Z.ltb_ge, Z.leb_gt. change (Z.pow_pos 2 32) with 4294967296%Z. split.
    + intros H. right. right. exists z. auto.
    + intros [H|[(b' & H)|(z' & [H|H] & H')]]; try discriminate. injection H as ->. auto.
Qed.
Lemma activation_iff v a : activation_of v = Ok a <-> v = VStr (activation_name a).
Proof.
  unfold activation_of. split.
  - repeat match goal with |- context [is_str ?s v] => destruct (is_str s v) eqn:?E end; intros H; try discriminate; injection H as <-;
    match goal with H : is_str _ v = true |- _ => apply is_str_iff in H; exact H end.
  - intros ->. destruct a; reflexivity.
Qed.
Lemma hidden_iff v hs : hidden_sizes v = Ok hs <-> exists l, v = VTuple l /\ Forall2 integer l hs /\ Forall (fun h => (0 < h)%Z) hs.
Proof.
  assert (Hm : forall l hs, mapM (fun h => match h with VInt z => if Z.leb z 0 then Err ValueError else Ok z
       | VBool b => if b then Ok 1%Z else Err ValueError | _ => Err ValueError end) l = Ok hs
     <-> Forall2 integer l hs /\ Forall (fun h => (0 < h)%Z) hs).
  { induction l as [|h l IH]; intros hs'; simpl.
    - split; [intros E; injection E as <-; auto|intros [H _]; inversion H; auto].
    - rewrite bind_ok. split.
      + intros (z & E & H). rewrite bind_ok in H. destruct H as (zs & E' & H). injection H as <-. apply IH in E' as [H1 H2].
        destruct h; try discriminate.
        * destruct b; try discriminate. injection E as <-. split; constructor; auto; [apply (integer_bool true)|lia].
        * destruct (Z.leb_spec z0 0); try discriminate. injection E as <-. split; constructor; auto. constructor.
      + intros [H1 H2]. inversion H1 as [|? z ? zs Hz Hzs]; subst. inversion H2; subst. exists z. split.
        * destruct Hz as [z|[]]; auto; [|lia]. rewrite (proj2 (Z.leb_gt z 0)) by lia. reflexivity.
        * apply bind_ok. exists zs. split; auto. apply IH. auto. }
  unfold hidden_sizes. destruct v; try (split; [discriminate|intros (l' & E & _); discriminate]).
  rewrite Hm. split; [eauto|]. intros (l' & E & H). injection E as <-. auto.
Qed.

(** ** Networks *)
Lemma chain_layers i hs o : linear_layers i hs o = chain i hs o.
Proof. revert i. induction hs as [|h hs IH]; intros i; simpl; auto. rewrite IH. reflexivity. Qed.

Lemma solver_iff v : negb (in_strs ["adagrad"; "sgd"; "adam"]%string v) = false <-> one_of ["adam"; "adagrad"; "sgd"]%string v.
Proof. rewrite in_strs_iff. unfold one_of. simpl. split; intros (s & H & E); exists s; split; auto; tauto. Qed.

Lemma net_iff c hs act :
  net_checks c = Ok hs /\ net_checks_adam c = Ok tt /\ check_seed (np_random_state c) = Ok tt /\ activation_of (np_activation c) = Ok act
  <-> net_accepted c hs act.
Proof.
  unfold net_checks, net_checks_adam.
  rewrite bind_ok. split.
  - intros ((hs' & Hh & H) & Ha & Hs & Hact). rewrite !seq_ok, ?raise_ok in H. change 1 with (IZR 1) in H at 1.
    rewrite !seq_ok in Ha.
    decompose [and] H. decompose [and] Ha. match goal with E : Ok hs' = Ok hs |- _ => injection E as -> end.
    constructor.
    + apply hidden_iff; auto.
    + apply activation_iff; auto.
    + apply solver_iff; auto.
    + apply float_min; auto.
    + apply batch_iff; auto.
    + apply float_above; auto.
    + apply int_min; auto.
    + apply is_bool_iff; auto.
    + apply seed_iff; auto.
    + apply float_above; auto.
    + apply float_minmax; auto.
    + apply is_bool_iff; auto.
    + apply is_bool_iff; auto.
    + apply float_frac; auto.
    + apply float_minmax; auto.
    + apply float_minmax; auto.
    + apply float_min; auto.
    + apply int_min; auto.
  - intros [h1 h2 h3 h4 h5 h6 h7 h8 h9 h10 h11 h12 h13 h14 h15 h16 h17 h18].
    apply float_above in h6, h10. apply float_frac in h14. destruct h6, h10, h14.
    split; [|split; [|split]].
    + exists hs. split; [apply hidden_iff; auto|]. rewrite !seq_ok, !raise_ok.
      repeat split; auto; first [apply solver_iff|apply float_min|apply batch_iff|apply (int_min _ 1)|apply is_bool_iff|apply float_minmax]; auto.
    + rewrite !seq_ok. repeat split; first [apply float_minmax|apply float_min|apply (int_min _ 1)]; auto.
    + apply seed_iff; auto.
    + apply activation_iff; auto.
Qed.

Lemma qfunc_iff K dim c a : qfunc_init K dim c = Ok a <->
  exists d hs act, integer dim d /\ (1 <= d)%Z /\ net_accepted c hs act /\ a = mkArch (chain d hs K) act false.
Proof.
  unfold qfunc_init. rewrite seq_ok, (int_min dim 1). split.
  - intros [(d & Hd & Hle) H]. rewrite bind_ok in H. destruct H as (hs & Hh & H). rewrite !seq_ok in H. destruct H as (Ha & Hs & H).
    apply bind_ok in H as (act & Hact & H). injection H as <-. exists d, hs, act. rewrite (integer_int_of dim d Hd), chain_layers.
    split; [auto|split; [auto|split; [apply net_iff; auto|reflexivity]]].
  - intros (d & hs & act & Hd & Hle & Hn & ->). split; [exists d; auto|]. apply net_iff in Hn as (Hh & Ha & Hs & Hact).
    rewrite bind_ok. exists hs. split; auto. rewrite !seq_ok. repeat split; auto. rewrite bind_ok. exists act. split; auto.
    rewrite (integer_int_of dim d Hd), chain_layers. reflexivity.
Qed.

Lemma qfunc_cont_iff dim c a : qfunc_cont_init dim c = Ok a <->
  exists d hs act, integer dim d /\ (1 <= d)%Z /\ net_accepted c hs act /\ a = mkArch (chain (d + 1) hs 1) act false.
Proof.
  unfold qfunc_cont_init. rewrite seq_ok, (int_min dim 1). split.
  - intros [(d & Hd & Hle) H]. rewrite bind_ok in H. destruct H as (hs & Hh & H). rewrite !seq_ok in H. destruct H as (Ha & Hs & H).
    apply bind_ok in H as (act & Hact & H). injection H as <-. exists d, hs, act. rewrite (integer_int_of dim d Hd), chain_layers.
    split; [auto|split; [auto|split; [apply net_iff; auto|reflexivity]]].
  - intros (d & hs & act & Hd & Hle & Hn & ->). split; [exists d; auto|]. apply net_iff in Hn as (Hh & Ha & Hs & Hact).
    rewrite bind_ok. exists hs. split; auto. rewrite !seq_ok. repeat split; auto. rewrite bind_ok. exists act. split; auto.
    rewrite (integer_int_of dim d Hd), chain_layers. reflexivity.
Qed.

(** ** Keyword arguments *)
Ltac strs k := repeat match goal with
  | |- context [String.eqb k ?s] => let E := fresh "E" in destruct (String.eqb k s) eqn:E; [apply String.eqb_eq in E; subst k|]
  end.

Lemma set_field_some c k v : (exists c', set_field c (k, v) = Ok c') <-> field c k <> None.
Proof.
  destruct c. unfold set_field, field. simpl fst. simpl snd.
  strs k; simpl; split; try (intros; discriminate); try (intros; eexists; reflexivity); try (intros (c' & H); discriminate).
  intros H. exfalso. apply H. reflexivity.
Qed.
Lemma set_field_err c k v : field c k = None -> set_field c (k, v) = Err TypeError.
Proof.
  destruct c. unfold set_field, field. simpl fst. simpl snd. strs k; simpl; intros H; try discriminate. reflexivity.
Qed.
Lemma set_field_get c k v c' k' : set_field c (k, v) = Ok c' -> field c' k' = if String.eqb k' k then Some v else field c k'.
Proof.
  destruct c as [hi ac so al ba lr mi sh rs to mo ne ea vf b1 b2 ep nc]. unfold set_field. simpl fst. simpl snd.
  strs k; intros H; try discriminate; injection H as <-; unfold field;
    cbn [np_hidden np_activation np_solver np_alpha np_batch np_lr np_max_iter np_shuffle np_random_state np_tol np_momentum np_nesterov
         np_early np_valfrac np_beta1 np_beta2 np_eps np_no_change];
    match goal with |- _ = (if String.eqb k' ?s then _ else _) => let EE := fresh "EE" in destruct (String.eqb k' s) eqn:EE; [apply String.eqb_eq in EE; subst k'; reflexivity|] end;
    reflexivity.
Qed.

Lemma with_kwargs_ok own d : NoDup (map fst d) -> forall c c', with_kwargs own c d = Ok c' <->
  (forall k v, In (k, v) d -> ~ In k own -> field c k <> None) /\
  (forall k, field c' k = match (if existsb (String.eqb k) own then None else lookup k d) with Some v => Some v | None => field c k end).
Proof.
  assert (Hfield : forall c c', (forall k, field c k = field c' k) -> c = c').
  { intros c c' H. assert (inj : forall x y : pyv, Some x = Some y -> x = y) by (intros x y E; injection E; auto).
    assert (e0 : np_hidden c = np_hidden c') by (exact (inj _ _ (H "hidden_layer_size"%string))).
    assert (e1 : np_activation c = np_activation c') by (exact (inj _ _ (H "activation"%string))).
    assert (e2 : np_solver c = np_solver c') by (exact (inj _ _ (H "solver"%string))).
    assert (e3 : np_alpha c = np_alpha c') by (exact (inj _ _ (H "alpha"%string))).
    assert (e4 : np_batch c = np_batch c') by (exact (inj _ _ (H "batch_size"%string))).
    assert (e5 : np_lr c = np_lr c') by (exact (inj _ _ (H "learning_rate_init"%string))).
    assert (e6 : np_max_iter c = np_max_iter c') by (exact (inj _ _ (H "max_iter"%string))).
    assert (e7 : np_shuffle c = np_shuffle c') by (exact (inj _ _ (H "shuffle"%string))).
    assert (e8 : np_random_state c = np_random_state c') by (exact (inj _ _ (H "random_state"%string))).
    assert (e9 : np_tol c = np_tol c') by (exact (inj _ _ (H "tol"%string))).
    assert (e10 : np_momentum c = np_momentum c') by (exact (inj _ _ (H "momentum"%string))).
    assert (e11 : np_nesterov c = np_nesterov c') by (exact (inj _ _ (H "nesterovs_momentum"%string))).
    assert (e12 : np_early c = np_early c') by (exact (inj _ _ (H "early_stopping"%string))).
    assert (e13 : np_valfrac c = np_valfrac c') by (exact (inj _ _ (H "validation_fraction"%string))).
    assert (e14 : np_beta1 c = np_beta1 c') by (exact (inj _ _ (H "beta_1"%string))).
    assert (e15 : np_beta2 c = np_beta2 c') by (exact (inj _ _ (H "beta_2"%string))).
    assert (e16 : np_eps c = np_eps c') by (exact (inj _ _ (H "epsilon"%string))).
    assert (e17 : np_no_change c = np_no_change c') by (exact (inj _ _ (H "n_iter_no_change"%string))).
    clear H inj. destruct c, c'. cbn [M_Init.np_hidden M_Init.np_activation M_Init.np_solver M_Init.np_alpha M_Init.np_batch M_Init.np_lr M_Init.np_max_iter M_Init.np_shuffle M_Init.np_random_state M_Init.np_tol M_Init.np_momentum M_Init.np_nesterov M_Init.np_early M_Init.np_valfrac M_Init.np_beta1 M_Init.np_beta2 M_Init.np_eps M_Init.np_no_change] in *. subst. reflexivity. }
  assert (Hown : forall k, existsb (String.eqb k) own = true <-> In k own).
  { intros k. rewrite existsb_exists. split; [intros (s & Hs & E); apply String.eqb_eq in E; subst; auto|]. intros H. exists k. split; auto. apply String.eqb_refl. }
  induction d as [|[k v] d IH]; intros Hnd c c'; cbn [with_kwargs lookup fst In].
  - split.
    + intros E. injection E as <-. split; [tauto|]. intros k. destruct (existsb _ _); reflexivity.
    + intros [_ H]. f_equal. apply Hfield. intros k. rewrite H. destruct (existsb _ _); reflexivity.
  - inversion Hnd as [|? ? Hk Hnd']; subst. assert (Hlk : lookup k d = None).
    { clear - Hk. induction d as [|[k' v'] d IH]; simpl in *; auto. destruct (String.eqb k k') eqn:E; [apply String.eqb_eq in E; subst; tauto|]. apply IH. tauto. }
    rewrite bind_ok. destruct (existsb (String.eqb k) own) eqn:Eo.
    + split.
      * intros (c1 & E & H). injection E as <-. apply (IH Hnd') in H as [H1 H2]. split.
        -- intros k' v' [E|E] Hn; [injection E as -> ->; exfalso; apply Hn, Hown; auto|eauto].
        -- intros k'. rewrite H2. destruct (existsb (String.eqb k') own) eqn:E'; auto. destruct (String.eqb k' k) eqn:Ek; auto.
           apply String.eqb_eq in Ek. subst. congruence.
      * intros [H1 H2]. exists c. split; auto. apply (IH Hnd'). split; [eauto|]. intros k'. rewrite H2.
        destruct (existsb (String.eqb k') own) eqn:E'; auto. destruct (String.eqb k' k) eqn:Ek; auto. apply String.eqb_eq in Ek. subst. congruence.
    + split.
      * intros (c1 & E & H). assert (Hc : field c k <> None) by (apply (set_field_some c k v); eauto).
        apply (IH Hnd') in H as [H1 H2]. split.
        -- intros k' v' [E0|E0] Hn; [injection E0 as -> ->; auto|]. intros Hf. apply (H1 k' v' E0 Hn). rewrite (set_field_get c k v c1 k' E).
           destruct (String.eqb k' k) eqn:Ek; auto. apply String.eqb_eq in Ek. subst. exfalso. apply Hk. apply (in_map fst) in E0. auto.
        -- intros k'. rewrite H2, (set_field_get c k v c1 k' E). destruct (existsb (String.eqb k') own) eqn:E'.
           ++ destruct (String.eqb k' k) eqn:Ek; auto. apply String.eqb_eq in Ek. subst. congruence.
           ++ destruct (String.eqb k' k) eqn:Ek; auto. apply String.eqb_eq in Ek. subst. rewrite Hlk. reflexivity.
      * intros [H1 H2]. assert (Hc : field c k <> None).
        { apply (H1 k v); auto. intros Hin. apply Hown in Hin. congruence. }
        apply (set_field_some c k v) in Hc as (c1 & E). exists c1. split; auto. apply (IH Hnd'). split.
        -- intros k' v' E0 Hn. rewrite (set_field_get c k v c1 k' E). destruct (String.eqb k' k) eqn:Ek; [discriminate|]. eauto.
        -- intros k'. rewrite H2, (set_field_get c k v c1 k' E). destruct (existsb (String.eqb k') own) eqn:E'.
           ++ destruct (String.eqb k' k) eqn:Ek; auto. apply String.eqb_eq in Ek. subst. congruence.
           ++ destruct (String.eqb k' k) eqn:Ek; auto. apply String.eqb_eq in Ek. subst. rewrite Hlk. reflexivity.
Qed.

(** ** Learners *)
Lemma number_min v lo : check_scalar_v v is_number (Some (Fin lo)) None = Ok tt <-> exists x, number v x /\ or_nan (at_least lo) x.
Proof.
  rewrite check_v_iff, is_number_iff, check_min_iff. split.
  - intros [(x & Hx) H]. exists x. split; auto. rewrite (number_num v x Hx) in H. auto.
  - intros (x & Hx & H). split; eauto. rewrite (number_num v x Hx). auto.
Qed.
Lemma number_minmax v lo hi : check_scalar_v v is_number (Some (Fin lo)) (Some (Fin hi)) = Ok tt <-> exists x, number v x /\ or_nan (between lo hi) x.
Proof.
  rewrite check_v_iff, is_number_iff, check_minmax_iff. split.
  - intros [(x & Hx) H]. exists x. split; auto. rewrite (number_num v x Hx) in H. auto.
  - intros (x & Hx & H). split; eauto. rewrite (number_num v x Hx). auto.
Qed.

Lemma lambda_iff objective lam l : one_of ["dm"; "ipw"; "dr"; "snipw"; "ipw-os"; "ipw-subgauss"]%string objective ->
  (nn_lambda_v objective lam = Ok l <-> lambda_in_use objective lam l).
Proof.
  intros (s & Hs & ->). unfold nn_lambda_v, lambda_in_use.
  change (fun d : R => match lam with VNone => VFloat (Fin d) | _ => lam end) with (fun d : R => given_or d lam).
  change (match lam with VNone => VFloat (Fin (1/1000)) | _ => lam end) with (given_or (1/1000) lam).
  change (match lam with VNone => VFloat (Fin 0) | _ => lam end) with (given_or 0 lam).
  change (match lam with VNone => VFloat (Fin 10000) | _ => lam end) with (given_or 10000 lam).
  assert (Hno : forall s', In s' ["dm"; "ipw"; "dr"]%string -> one_of ["dm"; "ipw"; "dr"]%string (VStr s')) by (intros s' H; exists s'; auto).
  assert (Hnot : forall s', ~ In s' ["dm"; "ipw"; "dr"]%string -> ~ one_of ["dm"; "ipw"; "dr"]%string (VStr s')) by (intros s' H (s'' & H' & E); injection E as ->; auto).
  simpl in Hs. destruct Hs as [<-|[<-|[<-|[<-|[<-|[<-|[]]]]]]]; cbn [is_str String.eqb Ascii.eqb Bool.eqb].
  1-3: split; [intros E; injection E as <-; right; right; right; split; [apply Hno; simpl; tauto|reflexivity]
             |intros [[E _]|[[E _]|[[E _]|[_ ->]]]]; try discriminate; reflexivity].
  - rewrite seq_ok, number_min. split.
    + intros [(x & Hx & H) E]. injection E as <-. right; left. split; auto. exists x. rewrite (number_num _ _ Hx). auto.
    + intros [[E _]|[[_ (x & Hx & H & ->)]|[[E _]|[H _]]]]; try discriminate; [|exfalso; revert H; apply Hnot; simpl; intuition discriminate].
      split; [eauto|]. rewrite (number_num _ _ Hx). auto.
  - rewrite seq_ok, number_min. split.
    + intros [(x & Hx & H) E]. injection E as <-. right; right; left. split; auto. exists x. rewrite (number_num _ _ Hx). auto.
    + intros [[E _]|[[E _]|[[_ (x & Hx & H & ->)]|[H _]]]]; try discriminate; [|exfalso; revert H; apply Hnot; simpl; intuition discriminate].
      split; [eauto|]. rewrite (number_num _ _ Hx). auto.
  - rewrite seq_ok, number_minmax. split.
    + intros [(x & Hx & H) E]. injection E as <-. left. split; auto. exists x. rewrite (number_num _ _ Hx). auto.
    + intros [[_ (x & Hx & H & ->)]|[[E _]|[[E _]|[H _]]]]; try discriminate; [|exfalso; revert H; apply Hnot; simpl; intuition discriminate].
      split; [eauto|]. rewrite (number_num _ _ Hx). auto.
Qed.

Lemma lambda_objective objective lam l : lambda_in_use objective lam l -> one_of ["dm"; "ipw"; "dr"; "snipw"; "ipw-os"; "ipw-subgauss"]%string objective.
Proof.
  intros [[-> _]|[[-> _]|[[-> _]|[(s & H & ->) _]]]].
  1: exists "ipw-subgauss"%string. 2: exists "snipw"%string. 3: exists "ipw-os"%string. 4: exists s. all: split; auto; simpl in *; tauto.
Qed.

Lemma hyper_iff hyper d : check_hyperparams hyper = Ok d <-> (hyper = VNone \/ exists h, hyper = VDict h) /\ d = (match hyper with VDict h => Some h | _ => None end).
Proof.
  destruct hyper; simpl; try (split; [discriminate|intros [[H|(h & H)] _]; discriminate]).
  - split; [intros E; injection E as <-; auto|]. intros [_ ->]. reflexivity.
  - split; [intros E; injection E as <-; split; eauto|]. intros [_ ->]. reflexivity.
Qed.
Lemma entries_eq hyper : (match (match hyper with VDict h => Some h | _ => None end) with Some d => d | None => [] end) = entries hyper.
Proof. destruct hyper; reflexivity. Qed.

Lemma len_iff n_actions K v : integer n_actions K ->
  check_scalar_v v is_int (Some (Fin 1)) (Some (num_of n_actions)) = Ok tt <-> exists L, integer v L /\ (1 <= L <= K)%Z.
Proof.
  intros HK. rewrite (integer_num _ _ HK), check_v_iff, is_int_iff, check_minmax_iff. split.
  - intros [(z & Hz) H]. exists z. split; auto. rewrite (integer_num v z Hz) in H. destruct H as [H|(r & E & H1 & H2)]; try discriminate.
    injection E as <-. apply (le_IZR 1) in H1. apply le_IZR in H2. lia.
  - intros (z & Hz & H1 & H2). split; [eauto|]. rewrite (integer_num v z Hz). right. exists (IZR z). split; auto. split; [apply (IZR_le 1)|apply IZR_le]; auto.
Qed.

Lemma learner_iff na ll dim obj lam pr vr hyper c net l q :
  nn_learner_init na ll dim obj lam pr vr hyper c = Ok (net, l, q) <->
  exists K d hs act, learner_accepted na ll dim obj lam pr vr hyper c K d hs act l /\ net = mkArch (chain d hs K) act true /\
    ((one_of ["dr"; "dm"]%string obj /\ exists cq a, with_kwargs ["n_actions"; "dim_context"]%string (net_defaults 200) (entries hyper) = Ok cq /\
        qfunc_init K dim cq = Ok a /\ q = Some a) \/ (~ one_of ["dr"; "dm"]%string obj /\ q = None)).
Proof.
  unfold nn_learner_init. rewrite seq_ok, (int_min na 2). split.
  - intros [(K & HK & H2) H]. rewrite seq_ok, (len_iff _ _ _ HK) in H. destruct H as [HL H]. rewrite seq_ok, (int_min dim 1) in H. destruct H as [(d & Hd & Hd1) H].
    rewrite seq_ok, raise_ok, in_strs_iff in H. destruct H as [Hobj H]. apply bind_ok in H as (l' & Hl & H). apply (lambda_iff _ _ _ Hobj) in Hl.
    rewrite !seq_ok, !number_min in H. destruct H as (Hpr & Hvr & H). apply bind_ok in H as (hs & Hhs & H). apply bind_ok in H as (dd & Hdd & H).
    rewrite !seq_ok in H. destruct H as (Ha & Hs & H). apply bind_ok in H as (act & Hact & H). apply hyper_iff in Hdd as [Hhy ->]. rewrite entries_eq in H.
    assert (Hn : net_accepted c hs act) by (apply net_iff; auto).
    rewrite (integer_int_of _ _ HK), (integer_int_of _ _ Hd), chain_layers in H. exists K, d, hs, act.
    destruct (in_strs ["dr"; "dm"]%string obj) eqn:Eo.
    + apply bind_ok in H as (cq & Hcq & H). apply bind_ok in H as (a & Hqa & H). injection H as <- <- <-.
      split; [|split; auto]; [constructor; auto|]. left. split; [apply in_strs_iff; rewrite Eo; auto|]. eauto.
    + injection H as <- <- <-. split; [|split; auto]; [constructor; auto|]. right. split; auto. intros Ho. apply in_strs_iff in Ho. rewrite Eo in Ho. discriminate.
  - intros (K & d & hs & act & [[HK H2] HL [Hd Hd1] Hlam Hpr Hvr Hhy Hn] & -> & Hq). split; [exists K; auto|].
    apply net_iff in Hn as (Hhs & Ha & Hs & Hact).
    rewrite seq_ok, (len_iff _ _ _ HK). split; auto. rewrite seq_ok, (int_min dim 1). split; [exists d; auto|].
    rewrite seq_ok, raise_ok, in_strs_iff. pose proof (lambda_objective _ _ _ Hlam) as Hobj. split; auto.
    apply bind_ok. exists l. split; [apply lambda_iff; auto|]. rewrite !seq_ok, !number_min. repeat (split; auto).
    apply bind_ok. exists hs. split; auto. apply bind_ok. eexists. split; [apply hyper_iff; split; [exact Hhy|reflexivity]|].
    rewrite !seq_ok. repeat (split; auto). apply bind_ok. exists act. split; auto. rewrite entries_eq, (integer_int_of _ _ HK), (integer_int_of _ _ Hd), chain_layers.
    destruct Hq as [(Ho & cq & a & Hcq & Hqa & ->)|(Ho & ->)].
    + apply in_strs_iff in Ho. apply negb_false_iff in Ho. rewrite Ho. apply bind_ok. exists cq. split; auto. apply bind_ok. exists a. auto.
    + destruct (in_strs ["dr"; "dm"]%string obj) eqn:Eo; auto. exfalso. apply Ho, in_strs_iff. rewrite Eo. reflexivity.
Qed.

Lemma space_iff v : negb (space_ok v) = false <-> v = VNone \/ exists l, v = VTuple l /\ Forall (fun u => exists x, number u x) l.
Proof.
  rewrite negb_false_iff. destruct v; simpl; try (split; [discriminate|intros [H|(l' & H & _)]; discriminate]).
  - tauto.
  - rewrite forallb_forall. split.
    + intros H. right. exists l. split; auto. apply Forall_forall. intros u Hu. apply is_number_iff. auto.
    + intros [H|(l' & E & H)]; [discriminate|]. injection E as <-. intros u Hu. apply is_number_iff. rewrite Forall_forall in H. auto.
Qed.

Lemma cont_learner_iff dim m h sp hyper c net q :
  cont_learner_init dim m h sp hyper c = Ok (net, q) <->
  exists d hs act, cont_learner_accepted dim m h sp hyper c d hs act /\ net = mkArch (chain d hs 1) act false /\
    ((m <> VStr "ipw" /\ exists cq a, with_kwargs ["dim_context"]%string (net_defaults 100) (entries hyper) = Ok cq /\
        qfunc_cont_init dim cq = Ok a /\ q = Some a) \/ (m = VStr "ipw" /\ q = None)).
Proof.
  unfold cont_learner_init. rewrite seq_ok, (int_min dim 1).
  assert (Hbw : (if is_str "dpg" m then Ok tt else check_scalar_v h is_number None None ;;; raise_if (nle (num_of h) (Fin 0)) ValueError) = Ok tt
     <-> (m <> VStr "dpg" -> exists x, number h x /\ or_nan (above 0) x)).
  { destruct (is_str "dpg" m) eqn:E.
    - apply is_str_iff in E. subst m. split; [intros _ H; congruence|reflexivity].
    - assert (Hm : m <> VStr "dpg") by (intros ->; discriminate). rewrite seq_ok, raise_ok, above_iff, check_v_iff, is_number_iff. split.
      + intros [[(x & Hx) _] H] _. exists x. rewrite (number_num _ _ Hx) in H. auto.
      + intros H. destruct (H Hm) as (x & Hx & Hx'). rewrite (number_num _ _ Hx). split; eauto. }
  split.
  - intros [(d & Hd & Hd1) H]. rewrite seq_ok, raise_ok, in_strs_iff in H. destruct H as [Hm H]. rewrite seq_ok, Hbw in H. destruct H as [Hb H].
    rewrite seq_ok, raise_ok, space_iff in H. destruct H as [Hsp H]. apply bind_ok in H as (hs & Hhs & H). rewrite seq_ok in H. destruct H as [Ha H].
    apply bind_ok in H as (dd & Hdd & H). apply hyper_iff in Hdd as [Hhy ->]. rewrite seq_ok in H. destruct H as [Hs H].
    apply bind_ok in H as (act & Hact & H). rewrite entries_eq, (integer_int_of _ _ Hd), chain_layers in H.
    assert (Hn : net_accepted c hs act) by (apply net_iff; auto). exists d, hs, act.
    destruct (is_str "ipw" m) eqn:Eo.
    + injection H as <- <-. split; [constructor; auto|split; auto]. right. split; auto. apply is_str_iff; auto.
    + apply bind_ok in H as (cq & Hcq & H). apply bind_ok in H as (a & Hqa & H). injection H as <- <-.
      split; [constructor; auto|split; auto]. left. split; [intros ->; discriminate|]. eauto.
  - intros (d & hs & act & [[Hd Hd1] Hm Hb Hsp Hhy Hn] & -> & Hq). split; [exists d; auto|]. apply net_iff in Hn as (Hhs & Ha & Hs & Hact).
    rewrite seq_ok, raise_ok, in_strs_iff. split; auto. rewrite seq_ok, Hbw. split; auto. rewrite seq_ok, raise_ok, space_iff. split; auto.
    apply bind_ok. exists hs. split; auto. rewrite seq_ok. split; auto. apply bind_ok. eexists. split; [apply hyper_iff; split; [exact Hhy|reflexivity]|].
    rewrite seq_ok. split; auto. apply bind_ok. exists act. split; auto. rewrite entries_eq, (integer_int_of _ _ Hd), chain_layers.
    destruct Hq as [(Ho & cq & a & Hcq & Hqa & ->)|(-> & ->)].
    + destruct (is_str "ipw" m) eqn:Eo; [apply is_str_iff in Eo; contradiction|]. apply bind_ok. exists cq. split; auto. apply bind_ok. exists a. auto.
    + reflexivity.
Qed.

(** ** Optimisers *)
Lemma nle0_iff v : negb (nle (Fin 0) (num_of v)) = false -> forall x, v = VFloat x -> at_least 0 x.
Proof. rewrite negb_false_iff. intros H x ->. unfold at_least. destruct x as [r| | |]; simpl in H; try discriminate; auto. apply Rleb_true in H. eauto. Qed.

Lemma at_least_iff x : nle (Fin 0) x = true <-> at_least 0 x.
Proof.
  unfold at_least. destruct x as [r| | |]; simpl.
  - rewrite Rleb_true. split; [eauto|]. intros [H|(r' & E & H)]; [discriminate|]. injection E as ->. auto.
  - tauto.
  - split; [discriminate|intros [H|(r' & E & H)]; discriminate].
  - split; [discriminate|intros [H|(r' & E & H)]; discriminate].
Qed.
Lemma beta_iff x : nle (Fin 0) x && nlt x (Fin 1) = true <-> between 0 1 x /\ x <> Fin 1.
Proof.
  rewrite andb_true_iff, at_least_iff. unfold at_least, between. split.
  - intros [[->|(r & -> & H)] H']; [discriminate|]. simpl in H'. apply Rltb_true in H'. split; [exists r; split; auto; lra|]. intros E. injection E as ->. lra.
  - intros [(r & -> & H) Hn]. assert (r <> 1) by congruence. split; [right; exists r; split; auto; lra|]. simpl. apply Rltb_true. lra.
Qed.
Lemma float_in_iff P v x : v = VFloat x -> (float_in P v <-> P x).
Proof. intros ->. unfold float_in. split; [intros (y & E & H); injection E as ->; auto|eauto]. Qed.

Lemma optimizer_iff c hs act : net_accepted c hs act -> (optimizer_ok c = Ok tt <-> optimizer_accepts c).
Proof.
  intros H. destruct (na_lr _ _ _ H) as (lr & Elr & _), (na_alpha _ _ _ H) as (al & Eal & _), (na_eps _ _ _ H) as (ep & Eep & _),
    (na_beta1 _ _ _ H) as (b1 & Eb1 & _), (na_beta2 _ _ _ H) as (b2 & Eb2 & _), (na_momentum _ _ _ H) as (mo & Emo & Hmo),
    (na_solver _ _ _ H) as (s & Hs & Es), (na_nesterov _ _ _ H) as (nb & Enb).
  unfold optimizer_ok, optimizer_accepts. rewrite Es.
  rewrite !(float_in_iff _ _ _ Elr), !(float_in_iff _ _ _ Eal), !(float_in_iff _ _ _ Eep), !(float_in_iff _ _ _ Eb1), !(float_in_iff _ _ _ Eb2), !(float_in_iff _ _ _ Emo).
  rewrite Elr, Eal, Eep, Eb1, Eb2, Emo, Enb. cbn [num_of].
  simpl in Hs. destruct Hs as [<-|[<-|[<-|[]]]]; cbn [is_str String.eqb Ascii.eqb Bool.eqb].
  - rewrite raise_ok, negb_false_iff, !andb_true_iff.
    pose proof (beta_iff b1) as B1. pose proof (beta_iff b2) as B2. rewrite andb_true_iff in B1, B2. rewrite B1, B2, !at_least_iff. clear B1 B2. split.
    + intros H0. right; right. tauto.
    + intros [[E _]|[[E _]|[_ H0]]]; try discriminate. tauto.
  - rewrite raise_ok, negb_false_iff, !andb_true_iff, !at_least_iff. split.
    + intros H0. right; left. tauto.
    + intros [[E _]|[[_ H0]|[E _]]]; try discriminate. tauto.
  - rewrite seq_ok, !raise_ok, negb_false_iff, !andb_true_iff, !at_least_iff. split.
    + intros [[[H1 H2] H3] H4]. left. repeat split; auto. intros E. injection E as ->. apply above_iff in H4. destruct H4 as [->|H4]; auto.
      destruct H2 as [H2|(r & H2 & _)]; discriminate.
    + intros [(_ & H1 & H2 & H3 & H4)|[[E _]|[E _]]]; try discriminate. repeat split; auto. destruct nb; auto. apply above_iff. right. auto.
Qed.
