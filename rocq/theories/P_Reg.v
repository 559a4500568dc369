(** * P_Reg: properties of the reward, propensity and importance-weight models. *)

From Coq Require Import Reals List ZArith Lia Lra Bool.
From Verif Require Import Num NpList M_Utils M_Slate M_Multi M_Feedback M_Offline M_Reg S_Base S_Slate S_Reg L_Num L_Base
  L_Estimators L_Utils L_Slate L_Multi L_Offline L_Reg P_Sim.
Import ListNotations.
Open Scope R_scope.

(** ** C54: cross-fitting *)

Lemma mapM_tab_iff {B} (g : nat -> res B) n ys : (0 < n)%nat -> mapM g (seq 0 n) = Ok ys <->
  (exists v, (forall j, (j < n)%nat -> g j = Ok (v j)) /\ ys = tab n v).
Proof.
  intros Hn. split.
  - intros H. pose proof (mapM_length _ _ _ H) as Hl. rewrite seq_length in Hl.
    destruct ys as [|d ys0]; [simpl in Hl; lia|]. set (ys := d :: ys0) in *.
    exists (fun j => nth j ys d). split; [|rewrite <- Hl; apply list_tab].
    intros j Hj. apply mapM_inv in H. clearbody ys. clear Hn ys0.
    assert (G : forall s ys, Forall2 (fun x y => g x = Ok y) (seq s n) ys -> forall j, (j < n)%nat -> g (s + j)%nat = Ok (nth j ys d)).
    { clear. induction n; intros s ys H j Hj; [lia|]. simpl in H. inversion H; subst. destruct j; simpl; [rewrite Nat.add_0_r; auto|].
      replace (s + S j)%nat with (S s + j)%nat by lia. apply IHn; auto. lia. }
    apply (G 0%nat ys H j Hj).
  - intros (v & H & ->). apply mapM_Ok. intros j Hj. apply in_seq in Hj. apply H. lia.
Qed.

Lemma partition_le n k fold : is_partition n k fold -> (k <= n)%nat.
Proof.
  intros (_ & H). rewrite <- (seq_length k 0), <- (seq_length n 0), <- (map_length fold (seq 0 n)).
  apply NoDup_incl_length. apply seq_NoDup. intros j Hj. apply in_seq in Hj. destruct (H j) as (i & Hi & <-); [lia|].
  apply in_map, in_seq. lia.
Qed.

Section CrossFit.
Context {M : Type} (rfit : M -> list (list num) -> list num -> option (list num) -> res M)
  (rpred : M -> list (list num) -> res (list num)) (train : list (list num) -> list num -> option (list num) -> res M)
  (f : M -> list num -> num) (HP : plain_learner rfit rpred train f).
Variables (K L : nat) (ac : nat -> list num) (meth : fitting) (l : rlog) (models : list M)
  (parg : option (list num)) (posarg : option (list Z)) (darg : option (list (list (list num)))).
Hypotheses (Hl : rlog_ok K L l) (HL : (0 < L)%nat) (Hm : length models = L)
  (Hp : pscore_is K l parg) (Hq : position_is L l posarg) (Hd : dist_is meth K L l darg).

Let run (n_folds : Z) (fold : nat -> nat) :=
  reg_fit_predict rfit rpred (mkReg K L (tab K ac) meth) models (tab (rl_n l) (rl_x l)) (tabZ (rl_n l) (rl_a l))
    (tab (rl_n l) (rl_r l)) parg posarg darg n_folds fold.

Lemma run_folds k fold : (2 <= k)%nat -> is_partition (rl_n l) k fold ->
  run (Z.of_nat k) fold =
  (mods <- mapM (fun j => mapM (trained train ac meth l (outside (rl_n l) fold j)) (seq 0 L)) (seq 0 k) ;;
   Ok (last mods models,
       tab (rl_n l) (fun i => fold_right (fun jm rest => if Nat.eqb (fold i) (fst jm) then tab K (fun a => map (fun mo => f mo (row_of ac l i a)) (snd jm)) else rest)
                                (repeat (repeat (Fin 0) L) K) (combine (seq 0 k) mods)))).
Proof.
  destruct HP as [Hf Hpr]. intros Hk Hpart. unfold run, reg_fit_predict. pose proof (ro_n _ _ _ Hl) as Hn.
  rewrite (feedback_ok _ K). cbn [bind].
  - unfold check_scalar_Z. rewrite (proj2 (Z.ltb_ge _ _)) by lia. cbn [raise_if bind rm_len].
    rewrite (fit_position_ok L _ _ (rl_pos l) _ l); auto; try apply Hl. cbn [bind].
    rewrite tab_length, reg_check_ok by auto. cbn [bind]. rewrite (reg_pscore_ok K L ac meth) by auto. cbv zeta.
    rewrite (proj2 (Z.eqb_neq _ _)) by lia. unfold kfold. rewrite Nat2Z.id.
    rewrite (proj2 (Nat.ltb_ge _ _)) by (apply (partition_le _ _ _ Hpart)). cbn [bind].
    unfold zeros3. rewrite (repeat_tab _ (rl_n l)). cbn [rm_actions].
    pose proof (folds_loop rfit rpred f Hpr train Hf K L ac meth l fold darg Hl HL Hd (seq 0 k)) as E. cbv zeta in E.
    apply E; auto. 2: apply seq_NoDup. destruct Hpart as [_ Hs]. intros j Hj. apply in_seq in Hj. split; [|apply Hs; lia].
    destruct (Hs (if Nat.eqb j 0 then 1 else 0)%nat) as (i & Hi & E'). destruct (Nat.eqb_spec j 0); lia.
    exists i. split; auto. rewrite E'. destruct (Nat.eqb_spec j 0); lia.
  - apply Hl.
  - apply Hl.
  - destruct Hp as [->|[-> _]]; auto. exists (rl_p l). split; auto. apply Hl.
  - destruct Hq as [->|(_ & [->|(_ & q & ->)])]; eauto.
  - apply tab_length.
  - apply tab_length.
Qed.

Lemma trained_Ok idx p m : trained train ac meth l idx p = Ok m <->
  rounds_of l idx p <> [] /\ train (train_X ac l idx p) (train_y l idx p) (train_w meth l idx p) = Ok m.
Proof. unfold trained. destruct (rounds_of l idx p); split; try discriminate; try tauto. split; auto; discriminate. Qed.

(** [fit_predict] with [k >= 2] folds succeeds exactly when every (fold, position) pair has training rounds outside the
    fold and training on them succeeds; every entry [i, a, p] is then the prediction, for context i and action a, of the
    estimator trained on the rounds of position p that lie outside the fold of round i; the shape is
    (n_rounds, n_actions, len_list). *)
Theorem C54_out_of_fold k fold ms q : (2 <= k)%nat -> is_partition (rl_n l) k fold ->
  run (Z.of_nat k) fold = Ok (ms, q) <->
  exists mod_ : nat -> nat -> M,
    (forall j p, (j < k)%nat -> (p < L)%nat ->
       rounds_of l (outside (rl_n l) fold j) p <> [] /\
       train (train_X ac l (outside (rl_n l) fold j) p) (train_y l (outside (rl_n l) fold j) p)
             (train_w meth l (outside (rl_n l) fold j) p) = Ok (mod_ j p)) /\
    ms = tab L (mod_ (k - 1)%nat) /\
    q = tab3 (rl_n l) K L (fun i a p => f (mod_ (fold i) p) (row_of ac l i a)).
Proof.
  intros Hk Hpart. rewrite run_folds by auto.
  assert (G : forall mods, mapM (fun j => mapM (trained train ac meth l (outside (rl_n l) fold j)) (seq 0 L)) (seq 0 k) = Ok mods <->
    exists mod_, (forall j p, (j < k)%nat -> (p < L)%nat -> trained train ac meth l (outside (rl_n l) fold j) p = Ok (mod_ j p)) /\
      mods = tab k (fun j => tab L (mod_ j))).
  { intros mods. rewrite mapM_tab_iff by lia. split.
    - intros (v & Hv & ->).
      assert (m0 : M) by (destruct models as [|m0 ?]; [simpl in Hm; lia|exact m0]).
      exists (fun j p => nth p (v j) m0). split.
      + intros j p Hj Hp'. specialize (Hv j Hj). apply mapM_tab_iff in Hv as (w & Hw & E); auto. rewrite E, nth_tab by auto. auto.
      + apply tab_ext. intros j Hj. specialize (Hv j Hj). apply mapM_length in Hv. rewrite seq_length in Hv.
        rewrite <- Hv. apply list_tab.
    - intros (mod_ & Hv & ->). exists (fun j => tab L (mod_ j)). split; auto. intros j Hj. apply mapM_tab_iff; auto.
      exists (mod_ j). split; auto. }
  assert (F : forall mod_ i, (i < rl_n l)%nat ->
    fold_right (fun jm rest => if Nat.eqb (fold i) (fst jm) then tab K (fun a => map (fun mo => f mo (row_of ac l i a)) (snd jm)) else rest)
        (repeat (repeat (Fin 0) L) K) (combine (seq 0 k) (tab k (fun j => tab L (mod_ j)))) =
    tab K (fun a => tab L (fun p => f (mod_ (fold i) p) (row_of ac l i a)))).
  { intros mod_ i Hi.
    pose proof (fold_pick _ (tab k (fun j => tab L (mod_ j))) (fun ms => tab K (fun a => map (fun mo => f mo (row_of ac l i a)) ms)) (fold i) []
       (repeat (repeat (Fin 0) L) K)) as E. rewrite tab_length in E. rewrite E by (apply Hpart; auto).
    rewrite nth_tab by (apply Hpart; auto). apply tab_ext. intros a Ha. rewrite map_tab. auto. }
  assert (Lt : forall mod_ : nat -> nat -> M, last (tab k (fun j => tab L (mod_ j))) models = tab L (mod_ (k - 1)%nat)).
  { intros mod_. destruct k; [lia|]. rewrite tab_S, last_last. do 2 f_equal. lia. }
  split.
  - intros H. apply bind_Ok in H as (mods & Em & H). apply G in Em as (mod_ & Hv & ->). injection H as <- <-.
    exists mod_. split; [|split; [apply Lt|]].
    + intros j p Hj Hp'. apply trained_Ok. auto.
    + apply tab_ext. intros i Hi. apply F; auto.
  - intros (mod_ & Hv & -> & ->).
    rewrite (proj2 (G (tab k (fun j => tab L (mod_ j))))). 2:{ exists mod_. split; auto. intros. apply trained_Ok. auto. }
    cbn [bind]. rewrite Lt. do 2 f_equal. apply tab_ext. intros i Hi. apply F; auto.
Qed.

(** With one fold the estimators are trained on all rounds and predict the same rounds. *)
Theorem C54_single_fold fold ms q :
  run 1 fold = Ok (ms, q) <->
  exists mod_ : nat -> M,
    (forall p, (p < L)%nat ->
       rounds_of l (all_rounds (rl_n l)) p <> [] /\
       train (train_X ac l (all_rounds (rl_n l)) p) (train_y l (all_rounds (rl_n l)) p)
             (train_w meth l (all_rounds (rl_n l)) p) = Ok (mod_ p)) /\
    ms = tab L mod_ /\ q = tab3 (rl_n l) K L (fun i a p => f (mod_ p) (row_of ac l i a)).
Proof.
  destruct HP as [Hf Hpr]. pose proof (ro_n _ _ _ Hl) as Hn. unfold run, reg_fit_predict.
  rewrite (feedback_ok _ K). cbn [bind].
  - unfold check_scalar_Z. change (Z.ltb 1 1) with false. cbn [raise_if bind rm_len].
    rewrite (fit_position_ok L _ _ (rl_pos l) _ l); auto; try apply Hl. cbn [bind].
    rewrite tab_length, reg_check_ok by auto. cbn [bind]. rewrite (reg_pscore_ok K L ac meth) by auto. cbv zeta.
    change (Z.eqb 1 1) with true. cbv iota.
    rewrite (reg_fit_fresh rfit train Hf) by (auto; left; auto).
    assert (Q : forall mod_ : nat -> M, reg_predict rpred (mkReg K L (tab K ac) meth) (tab L mod_) (tab (rl_n l) (rl_x l)) =
       Ok (tab3 (rl_n l) K L (fun i a p => f (mod_ p) (row_of ac l i a)))).
    { intros mod_. unfold tab at 3. rewrite (reg_predict_map rpred f Hpr). f_equal. apply tab_ext. intros i Hi. apply tab_ext. intros a Ha.
      rewrite map_tab. reflexivity. destruct (rl_n l); [lia|discriminate]. }
    split.
    + intros H. apply bind_Ok in H as (ms' & Em & H). apply mapM_tab_iff in Em as (mod_ & Hv & ->); auto.
      rewrite Q in H. injection H as <- <-. exists mod_. split; auto. intros p Hp'. apply trained_Ok. auto.
    + intros (mod_ & Hv & -> & ->). rewrite (proj2 (mapM_tab_iff _ L (tab L mod_) HL)).
      2:{ exists mod_. split; auto. intros p Hp'. apply trained_Ok. auto. }
      cbn [bind]. rewrite Q. reflexivity.
  - apply Hl.
  - apply Hl.
  - destruct Hp as [->|[-> _]]; auto. exists (rl_p l). split; auto. apply Hl.
  - destruct Hq as [->|(_ & [->|(_ & q' & ->)])]; eauto.
  - apply tab_length.
  - apply tab_length.
Qed.

(** A (fold, position) pair without training rounds is a ValueError (when no training itself raises). *)
Theorem C54_missing_position k fold : (2 <= k)%nat -> is_partition (rl_n l) k fold ->
  (forall X y w, exists m, train X y w = Ok m) ->
  (exists j p, (j < k)%nat /\ (p < L)%nat /\ rounds_of l (outside (rl_n l) fold j) p = []) ->
  run (Z.of_nat k) fold = Err ValueError.
Proof.
  intros Hk Hpart Ht (j & p & Hj & Hp' & E). rewrite run_folds by auto.
  assert (A : forall j' p', trained train ac meth l (outside (rl_n l) fold j') p' = Err ValueError \/ exists y, trained train ac meth l (outside (rl_n l) fold j') p' = Ok y).
  { intros j' p'. unfold trained. destruct (rounds_of _ _ p'); auto. }
  rewrite (mapM_Err_some _ _ ValueError); auto.
  - intros j' Hj'. destruct (mapM (trained train ac meth l (outside (rl_n l) fold j')) (seq 0 L)) as [y|e] eqn:Em; eauto.
    left. clear Hj'. revert Em. generalize (seq 0 L). induction l0 as [|x l0 IH]; simpl; [discriminate|].
    destruct (A j' x) as [->|(y & ->)]; simpl; [congruence|]. destruct (mapM _ l0); simpl; [discriminate|]. auto.
  - exists j. split; [apply in_seq; lia|]. apply mapM_Err_some. intros; apply A. exists p. split; [apply in_seq; lia|].
    unfold trained. rewrite E. auto.
Qed.

(** More folds than rounds, or fewer than one, are a ValueError. *)
Theorem C54_fold_count n_folds fold : (n_folds < 1 \/ Z.of_nat (rl_n l) < n_folds)%Z -> run n_folds fold = Err ValueError.
Proof.
  intros H. pose proof (ro_n _ _ _ Hl) as Hn. unfold run, reg_fit_predict. rewrite (feedback_ok _ K). cbn [bind].
  - unfold check_scalar_Z. destruct (Z.ltb_spec n_folds 1); [reflexivity|]. cbn [raise_if bind rm_len].
    rewrite (fit_position_ok L _ _ (rl_pos l) _ l); auto; try apply Hl. cbn [bind].
    rewrite tab_length, reg_check_ok by auto. cbn [bind]. cbv zeta.
    rewrite (proj2 (Z.eqb_neq _ _)) by lia. unfold kfold. rewrite (proj2 (Nat.ltb_lt _ _)) by lia. reflexivity.
  - apply Hl.
  - apply Hl.
  - destruct Hp as [->|[-> _]]; auto. exists (rl_p l). split; auto. apply Hl.
  - destruct Hq as [->|(_ & [->|(_ & q' & ->)])]; eauto.
  - apply tab_length.
  - apply tab_length.
Qed.
End CrossFit.

Lemma rounds_in l n idx p i : (forall i, In i idx -> (i < n)%nat) -> In i (rounds_of l idx p) -> (i < n)%nat.
Proof. intros H Hi. apply filter_In in Hi as [Hi _]. auto. Qed.
Lemma outside_in n fold j i : In i (outside n fold j) <-> (i < n)%nat /\ fold i <> j.
Proof. unfold outside. rewrite filter_In, in_seq, negb_true_iff, Nat.eqb_neq. intuition lia. Qed.

(** Training data only depends on the rounds used. *)
Lemma train_data_ext ac m l l' idx p :
  (forall i, In i idx -> rl_x l' i = rl_x l i /\ rl_a l' i = rl_a l i /\ rl_r l' i = rl_r l i /\ rl_p l' i = rl_p l i /\ rl_pos l' i = rl_pos l i /\
     forall a p, rl_pi l' i a p = rl_pi l i a p) ->
  rounds_of l' idx p = rounds_of l idx p /\ train_X ac l' idx p = train_X ac l idx p /\ train_y l' idx p = train_y l idx p /\
  train_w m l' idx p = train_w m l idx p.
Proof.
  intros H.
  assert (E : rounds_of l' idx p = rounds_of l idx p).
  { apply filter_ext_in. intros i Hi. destruct (H i Hi) as (_ & _ & _ & _ & -> & _). auto. }
  split; auto. unfold train_X, train_y, train_w, row_of. rewrite E.
  assert (HI : forall i, In i (rounds_of l idx p) -> In i idx) by (intros i Hi; apply filter_In in Hi; tauto).
  split; [|split]; [| |destruct m; [auto|f_equal|f_equal]]; apply map_ext_in; intros i Hi;
    destruct (H i (HI i Hi)) as (E1 & E2 & E3 & E4 & E5 & E6); rewrite ?E1, ?E2, ?E3, ?E4, ?E6; auto.
Qed.

(** No leakage: whatever is recorded for round i (action, reward, propensity, position, evaluation policy) has no
    influence on the cross-fitted predictions for round i. *)
Theorem C54_own_round_irrelevant : forall (M : Type) rfit rpred train f, @plain_learner M rfit rpred train f ->
  forall K L ac meth l l' models parg parg' posarg posarg' darg darg' k fold ms ms' q q' i,
  rlog_ok K L l -> rlog_ok K L l' -> (0 < L)%nat -> length models = L ->
  pscore_is K l parg -> position_is L l posarg -> dist_is meth K L l darg ->
  pscore_is K l' parg' -> position_is L l' posarg' -> dist_is meth K L l' darg' ->
  (2 <= k)%nat -> is_partition (rl_n l) k fold -> (i < rl_n l)%nat -> differ_only_at l l' i ->
  reg_fit_predict rfit rpred (mkReg K L (tab K ac) meth) models (tab (rl_n l) (rl_x l)) (tabZ (rl_n l) (rl_a l))
    (tab (rl_n l) (rl_r l)) parg posarg darg (Z.of_nat k) fold = Ok (ms, q) ->
  reg_fit_predict rfit rpred (mkReg K L (tab K ac) meth) models (tab (rl_n l') (rl_x l')) (tabZ (rl_n l') (rl_a l'))
    (tab (rl_n l') (rl_r l')) parg' posarg' darg' (Z.of_nat k) fold = Ok (ms', q') ->
  nth_error q i = nth_error q' i /\ nth_error q i <> None.
Proof.
  intros M rfit rpred train f HP K L ac meth l l' models parg parg' posarg posarg' darg darg' k fold ms ms' q q' i
    Hl Hl' HL Hm Hp Hq Hd Hp' Hq' Hd' Hk Hpart Hi (En & Ex & Eo) H H'.
  apply (C54_out_of_fold rfit rpred train f HP) in H as (mod_ & Hv & -> & ->); auto.
  apply (C54_out_of_fold rfit rpred train f HP) in H' as (mod_' & Hv' & -> & ->); auto; [|rewrite En; auto].
  unfold tab3. rewrite !nth_error_tab by lia. split; [|discriminate]. f_equal. apply tab_ext. intros a Ha. apply tab_ext. intros p Hp''.
  assert (Hj : (fold i < k)%nat) by (apply Hpart; auto).
  destruct (Hv (fold i) p Hj Hp'') as [_ T]. destruct (Hv' (fold i) p Hj Hp'') as [_ T'].
  destruct (train_data_ext ac meth l l' (outside (rl_n l) fold (fold i)) p) as (_ & E1 & E2 & E3).
  { intros j Hj'. apply outside_in in Hj' as [Hjn Hjf]. assert (j <> i) by congruence. destruct (Eo j) as (? & ? & ? & ? & ?); auto.
  }
  rewrite En, E1, E2, E3, T in T'. injection T' as ->. unfold row_of. rewrite Ex by auto. reflexivity.
Qed.

(** The estimator has to forget earlier calls of [fit]: with one that accumulates (a warm start), the prediction for the
    last round changes with its own reward. *)
Theorem C54_warm_start_leaks : exists rfit rpred (l : num -> rlog) fold q,
  is_partition 2 2 fold /\ (forall r, rlog_ok 2 1 (l r)) /\ differ_only_at (l (Fin 0)) (l (Fin 1)) 1 /\
  (forall r, exists ms, reg_fit_predict rfit rpred (mkReg 2 1 (eye 2) Normal) [Fin 0] (tab 2 (rl_x (l r))) (tabZ 2 (rl_a (l r)))
     (tab 2 (rl_r (l r))) (Some (tabF 2 (rl_p (l r)))) None None 2 fold = Ok (ms, q r)) /\ nth_error (q (Fin 0)) 1 <> nth_error (q (Fin 1)) 1.
Proof.
  set (rfit := fun (m : num) (X : list (list num)) (y : list num) (w : option (list num)) => Ok (nadd m (nsum y)) : res num).
  set (rpred := fun (m : num) (X : list (list num)) => Ok (map (fun _ => m) X) : res (list num)).
  set (l := fun r => mkLog 2 (fun _ => [Fin 0]) (fun _ => 0%nat) (fun i => match i with O => Fin 0 | _ => r end) (fun _ => 1 / 2)
              (fun _ => 0%nat) (fun _ _ _ => 1 / 2)).
  exists rfit, rpred, l, (fun i => i).
  exists (fun r => [[[nadd (Fin 0) (nadd r (Fin 0))]; [nadd (Fin 0) (nadd r (Fin 0))]];
             [[nadd (nadd (Fin 0) (nadd r (Fin 0))) (nadd (Fin 0) (Fin 0))]; [nadd (nadd (Fin 0) (nadd r (Fin 0))) (nadd (Fin 0) (Fin 0))]]]).
  split; [|split; [|split; [|split]]].
  - split; intros; eauto.
  - intros r. constructor; simpl; intros; try lia; try lra.
  - split; [reflexivity|]. split; [reflexivity|]. intros [|[|j]] Hj Hne; simpl in *; try lia. auto 10.
  - intros r. eexists. unfold reg_fit_predict.
    assert (E : forall x y, reg_fit rfit (mkReg 2 1 (eye 2) Normal) [x] [[Fin 0]] [0%Z] [y] (Some [Fin (1/2)]) (Some [0%Z]) None = Ok [nadd x (nadd y (Fin 0))]).
    { intros x y. pose proof (reg_fit_eq rfit 2 1 (fun i => tab 2 (fun j => nbool (Nat.eqb i j))) Normal
        (mkLog 1 (fun _ => [Fin 0]) (fun _ => 0%nat) (fun _ => y) (fun _ => 1 / 2) (fun _ => 0%nat) (fun _ _ _ => 1 / 2)) [x]
        (Some [Fin (1/2)]) (Some [0%Z]) None) as E. cbn in E. apply E; auto.
      - constructor; simpl; intros; try lia; try lra.
      - left. reflexivity.
      - left. reflexivity.
      - right. auto. }
    rewrite (feedback_ok _ 2); auto.
    2: exists (rl_p (l r)); split; [reflexivity|intros; simpl; lra].
    cbn [bind check_scalar_Z fit_position reg_check_dist rm_method reg_pscore rm_len]. cbv zeta.
    assert (P : forall x, reg_predict rpred (mkReg 2 1 (eye 2) Normal) [x] [[Fin 0]] = Ok [[[x]; [x]]]).
    { intros x. cbn -[nadd]. change (Pos.to_nat 1) with 1%nat. reflexivity. }
    cbn -[reg_fit reg_predict nadd eye]. change (kfold 2 (Pos.to_nat 2) (fun i => i)) with (Ok [([1%nat], [0%nat]); ([0%nat], [1%nat])]).
    cbn -[reg_fit reg_predict nadd eye]. change (Pos.to_nat 1) with 1%nat. cbn -[reg_fit reg_predict nadd eye]. rewrite E.
    cbn -[reg_fit reg_predict nadd eye]. rewrite P. cbn -[reg_fit reg_predict nadd eye]. rewrite E.
    cbn -[reg_fit reg_predict nadd eye]. change (Pos.to_nat 1) with 1%nat. cbn -[reg_predict nadd eye]. rewrite P.
    cbn -[nadd]. change (Pos.to_nat 1) with 1%nat. cbn -[nadd]. reflexivity.
  - simpl. intros H. injection H as H _. lra.
Qed.

(** The premises are met: four rounds, two positions, two folds, and an estimator that predicts the mean reward of its
    training rounds. *)
Example C54_ex : exists (train : list (list num) -> list num -> option (list num) -> res num) f rfit rpred l fold,
  plain_learner rfit rpred train f /\ rlog_ok 2 2 l /\ is_partition (rl_n l) 2 fold /\ position_is 2 l (Some (tabZ (rl_n l) (rl_pos l))) /\
  reg_fit_predict rfit rpred (mkReg 2 2 (tab 2 (fun a => [Fin (INR a)])) Iw) [Fin 0; Fin 0] (tab (rl_n l) (rl_x l)) (tabZ (rl_n l) (rl_a l))
    (tab (rl_n l) (rl_r l)) (Some (tabF (rl_n l) (rl_p l))) (Some (tabZ (rl_n l) (rl_pos l))) (Some (tab3F (rl_n l) 2 2 (rl_pi l))) 2 fold =
  Ok ([Fin 1; Fin 2],
      [[[Fin 3; Fin 4]; [Fin 3; Fin 4]]; [[Fin 3; Fin 4]; [Fin 3; Fin 4]]; [[Fin 1; Fin 2]; [Fin 1; Fin 2]]; [[Fin 1; Fin 2]; [Fin 1; Fin 2]]]).
Proof.
  set (train := fun (X : list (list num)) y (w : option (list num)) => Ok (nmean y) : res num).
  set (l := mkLog 4 (fun i => [Fin (INR i)]) (fun i => Nat.modulo i 2) (fun i => Fin (INR (S i))) (fun _ => 1 / 2) (fun i => Nat.modulo i 2) (fun _ _ _ => 1 / 2)).
  exists train, (fun m _ => m), (fun _ => train), (fun m X => Ok (map (fun _ => m) X)), l, (fun i => Nat.div i 2).
  assert (HP : plain_learner (fun _ : num => train) (fun m X => Ok (map (fun _ => m) X)) train (fun m _ => m)) by (split; auto).
  assert (Hl : rlog_ok 2 2 l). { constructor; [cbn; lia|intros; apply Nat.mod_upper_bound; lia|intros; cbn; lra|intros; apply Nat.mod_upper_bound; lia|intros; cbn; lra]. }
  assert (Hpa : is_partition (rl_n l) 2 (fun i => Nat.div i 2)).
  { split. intros i Hi. apply Nat.div_lt_upper_bound; [lia|]. exact Hi. intros [|[|j]] Hj; [exists 0%nat|exists 2%nat|lia]; split; cbn; auto; lia. }
  split; [auto|]. split; [auto|]. split; [auto|]. split; [left; reflexivity|].
  change 2%Z with (Z.of_nat 2). apply (C54_out_of_fold _ _ _ _ HP 2 2 _ Iw l); auto.
  - left; reflexivity.
  - left; reflexivity.
  - left; reflexivity.
  - exists (fun j p => match j, p with O, O => Fin 3 | O, _ => Fin 4 | _, O => Fin 1 | _, _ => Fin 2 end).
    assert (M1 : forall a, nmean [Fin a] = Fin a).
    { intros a. unfold nmean. simpl length. unfold nnat. simpl nsum. cbn [nadd]. change (INR 1) with 1. rewrite ndiv_Fin by lra. f_equal. field. }
    split; [|split; reflexivity].
    intros [|[|j]] [|[|p]] Hj Hp; try lia; (split; [discriminate|]); unfold train, train_y; cbn -[nmean INR]; rewrite M1; do 2 f_equal; simpl; lra.
Qed.

(** ** C55: what each position's estimator is trained on *)

(** [fit] succeeds exactly when every position has a logged round and its estimator accepts the training data: the
    features (context, action context) and rewards of the rounds logged at that position, in order, with no weights
    ("normal"), weights pi_e/p ("iw") or pi_e (1-p) / p^2 ("mrdr").  The estimator may use its earlier state. *)
Theorem C55_training_sets : forall (M : Type) rfit K L ac meth l (models : list M) parg posarg darg ms m0,
  rlog_ok K L l -> (0 < L)%nat -> length models = L ->
  pscore_is K l parg -> position_is L l posarg -> dist_is meth K L l darg ->
  reg_fit rfit (mkReg K L (tab K ac) meth) models (tab (rl_n l) (rl_x l)) (tabZ (rl_n l) (rl_a l)) (tab (rl_n l) (rl_r l))
    parg posarg darg = Ok ms <->
  length ms = L /\ forall p, (p < L)%nat ->
    rounds_of l (all_rounds (rl_n l)) p <> [] /\
    rfit (nth p models m0) (train_X ac l (all_rounds (rl_n l)) p) (train_y l (all_rounds (rl_n l)) p)
         (train_w meth l (all_rounds (rl_n l)) p) = Ok (nth p ms m0).
Proof.
  intros M rfit K L ac meth l models parg posarg darg ms m0 Hl HL Hm Hp Hq Hd. rewrite reg_fit_eq by auto.
  set (g := fun p mo => fit_one rfit ac meth l (all_rounds (rl_n l)) p mo).
  assert (G : forall p mo y, g p mo = Ok y <-> rounds_of l (all_rounds (rl_n l)) p <> [] /\
     rfit mo (train_X ac l (all_rounds (rl_n l)) p) (train_y l (all_rounds (rl_n l)) p) (train_w meth l (all_rounds (rl_n l)) p) = Ok y).
  { intros p mo y. unfold g, fit_one. destruct (rounds_of l (all_rounds (rl_n l)) p); split; try discriminate; try tauto. split; auto; discriminate. }
  change (mapM (fun pm => g (fst pm) (snd pm)) (combine (seq 0 L) models) = Ok ms <->
    length ms = L /\ forall p, (p < L)%nat -> rounds_of l (all_rounds (rl_n l)) p <> [] /\
     rfit (nth p models m0) (train_X ac l (all_rounds (rl_n l)) p) (train_y l (all_rounds (rl_n l)) p) (train_w meth l (all_rounds (rl_n l)) p) = Ok (nth p ms m0)).
  assert (E : combine (seq 0 L) models = tab L (fun p => (p, nth p models m0))).
  { rewrite (list_tab models m0), Hm at 1. unfold tab. generalize (seq 0 L). induction l0; simpl; congruence. }
  rewrite E. unfold tab. rewrite mapM_map. cbn [fst snd]. rewrite mapM_tab_iff by auto. split.
  - intros (v & Hv & ->). split; [apply tab_length|]. intros p Hp'. rewrite nth_tab by auto. apply G. auto.
  - intros (Hlen & H). exists (fun p => nth p ms m0). split; [|rewrite <- Hlen; apply list_tab]. intros p Hp'. apply G. auto.
Qed.

(** The weights: non-negative for probabilities, zero where the evaluation policy never goes, and the "mrdr" weight is
    the "iw" weight times (1-p)/p, hence at most iw/p, and zero for rounds with propensity one. *)
Theorem C55_weights : forall pi p, 0 <= pi -> 0 < p <= 1 ->
  0 <= weight_of Iw pi p /\ 0 <= weight_of Mrdr pi p /\
  weight_of Mrdr pi p = weight_of Iw pi p * (1 - p) / p /\ weight_of Mrdr pi p <= weight_of Iw pi p / p /\
  (pi = 0 -> weight_of Iw pi p = 0 /\ weight_of Mrdr pi p = 0) /\ (p = 1 -> weight_of Mrdr pi p = 0).
Proof.
  intros pi p H0 [Hp Hp1]. unfold weight_of.
  assert (I : 0 < / p) by (apply Rinv_0_lt_compat; auto).
  assert (A : pi * (1 - p) / (p * p) = pi / p * (1 - p) / p) by (field; lra).
  assert (B : 0 <= pi / p) by (unfold Rdiv; nra).
  assert (C : 0 <= pi / p * (1 - p) / p) by (unfold Rdiv in *; apply Rmult_le_pos; [apply Rmult_le_pos; [auto|lra]|lra]).
  split; [auto|]. split; [rewrite A; auto|]. split; [auto|]. split.
  - rewrite A. unfold Rdiv at 1 3. apply Rmult_le_compat_r; [lra|]. nra.
  - split; [intros ->; split; unfold Rdiv; ring|intros ->; field].
Qed.

(** Rounds of other positions have no influence on a position's estimator. *)
Theorem C55_other_positions_irrelevant : forall (M : Type) rfit K L ac meth l l' (models : list M) parg parg' posarg posarg' darg darg' ms ms' p,
  rlog_ok K L l -> rlog_ok K L l' -> (0 < L)%nat -> length models = L -> (p < L)%nat ->
  pscore_is K l parg -> position_is L l posarg -> dist_is meth K L l darg ->
  pscore_is K l' parg' -> position_is L l' posarg' -> dist_is meth K L l' darg' ->
  agree_at l l' p ->
  reg_fit rfit (mkReg K L (tab K ac) meth) models (tab (rl_n l) (rl_x l)) (tabZ (rl_n l) (rl_a l)) (tab (rl_n l) (rl_r l))
    parg posarg darg = Ok ms ->
  reg_fit rfit (mkReg K L (tab K ac) meth) models (tab (rl_n l') (rl_x l')) (tabZ (rl_n l') (rl_a l')) (tab (rl_n l') (rl_r l'))
    parg' posarg' darg' = Ok ms' ->
  nth_error ms p = nth_error ms' p.
Proof.
  intros M rfit K L ac meth l l' models parg parg' posarg posarg' darg darg' ms ms' p Hl Hl' HL Hm Hp Hpa Hqa Hda Hpa' Hqa' Hda' (En & Ep & Eo) H H'.
  assert (m0 : M) by (destruct models as [|m0 ?]; [simpl in Hm; lia|exact m0]).
  apply (C55_training_sets _ _ _ _ _ _ _ _ _ _ _ _ m0) in H as (Ln & H); auto.
  apply (C55_training_sets _ _ _ _ _ _ _ _ _ _ _ _ m0) in H' as (Ln' & H'); auto.
  destruct (H p Hp) as [_ T]. destruct (H' p Hp) as [_ T'].
  rewrite (nth_error_nth' ms m0) by lia. rewrite (nth_error_nth' ms' m0) by lia. f_equal.
  rewrite En in T'.
  assert (E : rounds_of l' (all_rounds (rl_n l)) p = rounds_of l (all_rounds (rl_n l)) p).
  { apply filter_ext_in. intros i Hi. apply in_seq in Hi. specialize (Ep i). destruct (Nat.eqb_spec (rl_pos l' i) p), (Nat.eqb_spec (rl_pos l i) p); auto; exfalso; intuition lia. }
  assert (HI : forall i, In i (rounds_of l (all_rounds (rl_n l)) p) -> (i < rl_n l)%nat /\ rl_pos l i = p).
  { intros i Hi. apply filter_In in Hi as [Hi Hp']. apply in_seq in Hi. apply Nat.eqb_eq in Hp'. lia. }
  assert (EX : train_X ac l' (all_rounds (rl_n l)) p = train_X ac l (all_rounds (rl_n l)) p).
  { unfold train_X, row_of. rewrite E. apply map_ext_in. intros i Hi. destruct (HI i Hi). destruct (Eo i) as (-> & -> & _); auto. }
  assert (EY : train_y l' (all_rounds (rl_n l)) p = train_y l (all_rounds (rl_n l)) p).
  { unfold train_y. rewrite E. apply map_ext_in. intros i Hi. destruct (HI i Hi). destruct (Eo i) as (_ & _ & -> & _); auto. }
  assert (EW : train_w meth l' (all_rounds (rl_n l)) p = train_w meth l (all_rounds (rl_n l)) p).
  { unfold train_w. rewrite E. destruct meth; auto; f_equal; apply map_ext_in; intros i Hi; destruct (HI i Hi);
    destruct (Eo i) as (_ & Ea & _ & Epp & Epi); auto; rewrite Ea, Epp, Epi; auto. }
  rewrite EX, EY, EW, T in T'. congruence.
Qed.

(** A model with several positions cannot be fitted without the position argument: every round then counts as position 0
    and [fit] raises ValueError, whatever the log (for estimators that do not raise themselves). *)
Theorem C55_position_required : forall (M : Type) rfit K L ac meth l (models : list M) parg darg,
  rlog_ok K L l -> (2 <= L)%nat -> length models = L -> (forall i, (i < rl_n l)%nat -> rl_pos l i = 0%nat) ->
  pscore_is K l parg -> dist_is meth K L l darg ->
  (forall ms, reg_fit rfit (mkReg K L (tab K ac) meth) models (tab (rl_n l) (rl_x l)) (tabZ (rl_n l) (rl_a l)) (tab (rl_n l) (rl_r l))
     parg None darg <> Ok ms) /\
  ((forall m X y w, exists m', rfit m X y w = Ok m') ->
   reg_fit rfit (mkReg K L (tab K ac) meth) models (tab (rl_n l) (rl_x l)) (tabZ (rl_n l) (rl_a l)) (tab (rl_n l) (rl_r l))
     parg None darg = Err ValueError).
Proof.
  intros M rfit K L ac meth l models parg darg Hl HL Hm H0 Hp Hd.
  assert (Hq : position_is L l None) by (right; auto).
  assert (E : rounds_of l (all_rounds (rl_n l)) 1 = []).
  { unfold rounds_of. rewrite (filter_ext_in _ (fun _ => false)).
    - generalize (all_rounds (rl_n l)). induction l0; auto.
    - intros i Hi. apply in_seq in Hi. rewrite H0 by lia. auto. }
  split.
  - intros ms H. assert (m0 : M) by (destruct models as [|m0 ?]; [simpl in Hm; lia|exact m0]).
    rewrite (C55_training_sets M rfit K L ac meth l models parg None darg ms m0) in H by (auto; lia). destruct H as (_ & H).
    destruct (H 1%nat ltac:(lia)) as [N _]. congruence.
  - intros Ht. rewrite reg_fit_eq by (auto; lia). apply mapM_Err_some.
    + intros [p mo] _. unfold fit_one. simpl. destruct (rounds_of l (all_rounds (rl_n l)) p); auto.
    + destruct models as [|m0 [|m1 models]]; simpl in Hm; try lia. exists (1%nat, m1). destruct L as [|[|L]]; try lia.
      split; [right; left; auto|]. unfold fit_one. simpl. rewrite E. auto.
Qed.

(** Two rounds per position, "mrdr" weights. *)
Example C55_ex : exists l, rlog_ok 2 2 l /\
  reg_fit (fun (_ : list (list num) * list num * option (list num)) X y w => Ok (X, y, w)) (mkReg 2 2 (tab 2 (fun a => [Fin (INR a)])) Mrdr)
    [([], [], None); ([], [], None)] (tab (rl_n l) (rl_x l)) (tabZ (rl_n l) (rl_a l)) (tab (rl_n l) (rl_r l)) (Some (tabF (rl_n l) (rl_p l)))
    (Some (tabZ (rl_n l) (rl_pos l))) (Some (tab3F (rl_n l) 2 2 (rl_pi l))) =
  Ok [([[Fin 0; Fin (INR 0)]; [Fin 0; Fin (INR 0)]], [Fin 1; Fin 3], Some [Fin (3 / 4 * (1 - 1 / 2) / (1 / 2 * (1 / 2))); Fin (3 / 4 * (1 - 1 / 2) / (1 / 2 * (1 / 2)))]);
      ([[Fin 0; Fin (INR 1)]; [Fin 0; Fin (INR 1)]], [Fin 2; Fin 4], Some [Fin (1 / 4 * (1 - 1 / 2) / (1 / 2 * (1 / 2))); Fin (1 / 4 * (1 - 1 / 2) / (1 / 2 * (1 / 2)))])].
Proof.
  set (l := mkLog 4 (fun i => [Fin 0]) (fun i => Nat.modulo i 2) (fun i => match i with 0 => Fin 1 | 1 => Fin 2 | 2 => Fin 3 | _ => Fin 4 end)%nat (fun _ => 1 / 2)
              (fun i => Nat.modulo i 2) (fun _ a _ => match a with O => 3 / 4 | _ => 1 / 4 end)).
  assert (Hl : rlog_ok 2 2 l). { constructor; [cbn; lia|intros; apply Nat.mod_upper_bound; lia|intros; cbn; lra|intros; apply Nat.mod_upper_bound; lia|intros; cbn; lra]. }
  exists l. split; auto.
  apply (C55_training_sets _ _ 2 2 _ Mrdr l _ _ _ _ _ ([], [], None)); auto; try (left; reflexivity).
  split; auto. intros [|[|p]] Hp; try lia; (split; [discriminate|reflexivity]).
Qed.

(** ** C56: the q-learner with weighted fitting *)

Theorem C56_always_rejected : forall (M : Type) rfit K L ac meth (models : list M) context action reward pscore position,
  (2 <= K)%nat -> (1 <= L)%nat -> meth <> Normal ->
  q_fit rfit (mkReg K L ac meth) models context action reward pscore position = Err ValueError.
Proof.
  intros M rfit K L ac meth models context action reward pscore position HK HL Hmeth. unfold q_fit.
  pose proof (C94_feedback_validator context action reward None position pscore None) as V.
  destruct V as [[-> HV]|[-> _]]; [|reflexivity]. cbn [bind rm_len].
  destruct HV as (Lc & Lr & (Hne & _) & _).
  assert (E1 : exists ps, default_pscore action pscore = Ok ps).
  { unfold default_pscore. destruct pscore; eauto. generalize (zmaxl_spec action). destruct (zmaxl action); simpl; eauto. intros [? _]; contradiction. }
  destruct E1 as (ps & ->). cbn [bind].
  destruct (if Nat.eqb L 1 then _ else _) as [pos|e] eqn:Eq.
  2:{ destruct (Nat.eqb L 1); [discriminate|]. destruct position; [discriminate|]. injection Eq as <-. reflexivity. }
  cbn [bind]. unfold reg_fit.
  destruct (C94_feedback_validator context action reward None (Some pos) (Some ps) (Some (rm_ac (mkReg K L ac meth)))) as [[-> HV]|[-> _]]; [|reflexivity].
  cbn [bind rm_len].
  assert (E2 : (exists q, fit_position L action (Some pos) = Ok q) \/ fit_position L action (Some pos) = Err ValueError).
  { unfold fit_position. destruct (Nat.eqb L 1); [left; eauto|]. destruct HV as (_ & _ & _ & _ & _ & (Lp & _) & _).
    generalize (zmaxl_spec pos). destruct (zmaxl pos) as [mx|e]; simpl.
    - intros _. destruct (Z.leb _ mx); simpl; eauto.
    - intros [-> _]. simpl in Lp. destruct action; [congruence|discriminate]. }
  destruct E2 as [(q & ->)| ->]; [|reflexivity]. cbn [bind].
  unfold reg_check_dist. cbn [rm_method rm_actions rm_len].
  assert (Hn : (0 < length context)%nat) by (rewrite Lc; destruct action; [congruence|simpl; lia]).
  assert (D : repeat (repeat (repeat (Fin 1) L) K) (length context) = tab3F (length context) K L (fun _ _ _ => 1)).
  { rewrite !repeat_tab. reflexivity. }
  rewrite D, shape_is_tab3 by (auto; lia). cbn [negb raise_if bind].
  assert (A : allclose1 (sum_axis1 (tab3F (length context) K L (fun _ _ _ => 1))) = false).
  { rewrite sum_axis1_tab by (auto; lia). apply not_true_is_false. intros A. unfold allclose1 in A.
    rewrite forallb_forall in A. specialize (A (tabF L (fun p => sumn K (fun _ => 1)))).
    assert (A' : forallb isclose1 (tabF L (fun _ => sumn K (fun _ => 1))) = true).
    { apply A. apply In_tab. exists 0%nat. split; auto. }
    rewrite forallb_forall in A'. specialize (A' (Fin (sumn K (fun _ => 1)))).
    assert (A'' : isclose1 (Fin (sumn K (fun _ => 1))) = true) by (apply A'; apply In_tab; exists 0%nat; split; auto; lia).
    simpl in A''. apply Rleb_true in A''. rewrite sumn_const in A''. apply le_INR in HK. simpl in HK.
    rewrite Rabs_right in A'' by lra. lra. }
  destruct meth; [congruence| |]; rewrite A; reflexivity.
Qed.

(** ... while the unweighted method accepts the same kind of log. *)
Example C56_ex : exists l, rlog_ok 2 1 l /\
  q_fit (fun (_ : list num) X y w => Ok y) (mkReg 2 1 (tab 2 (fun a => [Fin (INR a)])) Normal) [[]]
    (tab (rl_n l) (rl_x l)) (tabZ (rl_n l) (rl_a l)) (tab (rl_n l) (rl_r l)) (Some (tabF (rl_n l) (rl_p l))) None = Ok [[Fin 1; Fin 1]].
Proof.
  set (l := mkLog 2 (fun i => [Fin 0]) (fun i => i) (fun i => Fin 1) (fun _ => 1 / 2) (fun i => 0%nat) (fun _ a _ => 1 / 2)).
  assert (Hl : rlog_ok 2 1 l) by (constructor; cbn; intros; try lia; lra).
  exists l. split; auto. unfold q_fit.
  rewrite (decides_Ok _ _ (C94_feedback_validator _ _ _ _ _ _ _)).
  - cbn [bind default_pscore rm_len Nat.eqb].
    apply (C55_training_sets _ _ 2 1 _ Normal l _ _ _ _ _ []); auto.
    + left; reflexivity.
    + left. reflexivity.
    + right. split; auto. right. eexists. split; reflexivity.
    + split; auto. intros [|p] Hp; [|lia]. split; [discriminate|reflexivity].
  - cbn. repeat split; auto; try discriminate; repeat constructor; try lia; simpl; apply Rleb_false; lra.
Qed.

(** ** C57: propensity estimates without positions *)

Theorem C57_zeros : forall (C : Type) cproba L (models : list C) context action,
  ps_predict cproba L models context action None = Ok (repeat (Fin 0) (length action)).
Proof.
  intros C cproba L models context action. unfold ps_predict. generalize (combine (seq 0 L) models). induction l; auto.
Qed.

(** The same call with positions returns the classifier's probabilities. *)
Example C57_ex : ps_predict (fun (_ : unit) X => Ok (map (fun _ => [Fin (1 / 4); Fin (3 / 4)]) X)) 1 [tt] [[Fin 0]; [Fin 0]] [1; 0]%Z (Some [0; 0]%Z)
  = Ok [Fin (3 / 4); Fin (1 / 4)] /\
  ps_predict (fun (_ : unit) X => Ok (map (fun _ => [Fin (1 / 4); Fin (3 / 4)]) X)) 1 [tt] [[Fin 0]; [Fin 0]] [1; 0]%Z None = Ok [Fin 0; Fin 0].
Proof. split; [|apply C57_zeros]. cbn. change (Pos.to_nat 1) with 1%nat. reflexivity. Qed.

(** ** C103: estimated propensities and unlogged actions *)

Lemma sorted_ge u y : sorted_values u y -> (forall z, In z y -> (0 <= z)%Z) -> forall j, (j < length u)%nat -> (Z.of_nat j <= nth j u 0)%Z.
Proof.
  intros [Hs Hin] H0. induction j; intros Hj.
  - apply H0, Hin, nth_In. auto.
  - specialize (IHj ltac:(lia)). specialize (Hs j (S j) ltac:(lia)). lia.
Qed.
Lemma sorted_gap u y : sorted_values u y -> (forall z, In z y -> (0 <= z)%Z) -> forall b, ~ In (Z.of_nat b) y ->
  forall a, (b <= a < length u)%nat -> (Z.of_nat a < nth a u 0)%Z.
Proof.
  intros Hsv H0 b Hb. induction a; intros Ha.
  - assert (b = 0)%nat by lia. subst b. pose proof (sorted_ge u y Hsv H0 0 ltac:(lia)).
    assert (nth 0 u 0%Z <> 0%Z); [|lia]. intros E. apply Hb. destruct Hsv as [_ Hin]. apply Hin. simpl Z.of_nat. rewrite <- E. apply nth_In. lia.
  - destruct (Nat.eq_dec b (S a)) as [->|N].
    + pose proof (sorted_ge u y Hsv H0 (S a) ltac:(lia)).
      assert (nth (S a) u 0%Z <> Z.of_nat (S a)); [|lia]. intros E. apply Hb. destruct Hsv as [_ Hin]. apply Hin. rewrite <- E. apply nth_In. lia.
    + specialize (IHa ltac:(lia)). destruct Hsv as [Hs _]. specialize (Hs a (S a) ltac:(lia)). lia.
Qed.
Lemma sorted_full u y a : sorted_values u y -> (forall z, In z y -> (0 <= z)%Z) -> (forall b, (b <= a)%nat -> In (Z.of_nat b) y) ->
  (a < length u)%nat /\ nth a u 0%Z = Z.of_nat a.
Proof.
  intros Hsv H0. induction a; intros Hb.
  - destruct Hsv as [Hs Hin]. specialize (Hb 0%nat ltac:(lia)). apply Hin in Hb. apply (In_nth _ _ 0%Z) in Hb as (j & Hj & E). split; [lia|].
    destruct j; auto. specialize (Hs 0%nat (S j) ltac:(lia)). assert (0 <= nth 0 u 0)%Z by (apply H0, Hin, nth_In; lia). lia.
  - destruct IHa as [Hl E]. intros; apply Hb; lia.
    destruct Hsv as [Hs Hin]. assert (Hb' := Hb (S a) ltac:(lia)). apply Hin in Hb'. apply (In_nth _ _ 0%Z) in Hb' as (j & Hj & Ej).
    assert (a < j)%nat. { destruct (Nat.lt_ge_cases a j); auto. exfalso. destruct (Nat.eq_dec a j); [subst; lia|]. specialize (Hs j a ltac:(lia)). lia. }
    split; [lia|]. destruct (Nat.eq_dec j (S a)) as [->|]; auto.
    pose proof (Hs a (S a) ltac:(lia)). pose proof (Hs (S a) j ltac:(lia)). lia.
Qed.

Section PropensityModel.
Context {C : Type} (cfit : C -> list (list num) -> list Z -> res C) (cproba : C -> list (list num) -> res (list (list num)))
  (ctrain : list (list num) -> list Z -> C) (classes : C -> list Z) (proba : C -> list num -> Z -> num)
  (HC : plain_classifier cfit cproba ctrain classes proba).
Variables (K L : nat) (l : rlog) (models : list C) (posarg : option (list Z)).
Hypotheses (Hl : clog_ok K L l) (HL : (0 < L)%nat) (Hm : length models = L) (Hq : position_is L l posarg).

(** Labels seen by the model of position [p] trained on the rounds [idx]. *)
Lemma seen idx p z : In z (classes (ps_model ctrain l idx p)) <-> exists i, In i idx /\ rl_pos l i = p /\ z = Z.of_nat (rl_a l i).
Proof.
  destruct HC as (_ & Hs & _). unfold ps_model. destruct (Hs (map (rl_x l) (rounds_of l idx p)) (map (fun i => Z.of_nat (rl_a l i)) (rounds_of l idx p))) as [_ Hin].
  rewrite Hin, in_map_iff. unfold rounds_of. split.
  - intros (i & <- & Hi). apply filter_In in Hi as [Hi E]. apply Nat.eqb_eq in E. eauto.
  - intros (i & Hi & E & ->). exists i. split; auto. apply filter_In. split; auto. apply Nat.eqb_eq. auto.
Qed.
Lemma seen_sorted idx p : exists y, sorted_values (classes (ps_model ctrain l idx p)) y /\ (forall z, In z y -> (0 <= z)%Z) /\
  forall b, In (Z.of_nat b) y <-> exists i, In i idx /\ rl_pos l i = p /\ rl_a l i = b.
Proof.
  destruct HC as (_ & Hs & _). eexists. split; [apply Hs|]. split.
  - intros z Hz. apply in_map_iff in Hz as (i & <- & _). lia.
  - intros b. destruct (Hs (map (rl_x l) (rounds_of l idx p)) (map (fun i => Z.of_nat (rl_a l i)) (rounds_of l idx p))) as [_ Hin].
    rewrite <- Hin. change (In (Z.of_nat b) (classes (ps_model ctrain l idx p)) <-> exists i, In i idx /\ rl_pos l i = p /\ rl_a l i = b).
    rewrite seen. split; intros (i & Hi & E & Ea); exists i; (split; [|split]); auto; lia.
Qed.

Lemma right_column idx i : smaller_logged l idx i ->
  in_columns classes (ps_model ctrain l idx) l i = true /\
  ps_at classes proba (ps_model ctrain l idx) l i = proba (ps_model ctrain l idx (rl_pos l i)) (rl_x l i) (Z.of_nat (rl_a l i)).
Proof.
  intros H. destruct (seen_sorted idx (rl_pos l i)) as (y & Hs & H0 & Hy).
  destruct (sorted_full _ y (rl_a l i) Hs H0) as [Hlt E]. intros b Hb. apply Hy. apply H. auto.
  unfold in_columns, ps_at. rewrite E. split; auto. apply Nat.ltb_lt. auto.
Qed.
Lemma wrong_column idx i : ~ smaller_logged l idx i ->
  in_columns classes (ps_model ctrain l idx) l i = false \/
  exists c, (Z.of_nat (rl_a l i) < c)%Z /\ ps_at classes proba (ps_model ctrain l idx) l i = proba (ps_model ctrain l idx (rl_pos l i)) (rl_x l i) c.
Proof.
  intros H. destruct (seen_sorted idx (rl_pos l i)) as (y & Hs & H0 & Hy). unfold in_columns, ps_at.
  destruct (Nat.ltb_spec (rl_a l i) (length (classes (ps_model ctrain l idx (rl_pos l i))))); auto. right. eexists. split; [|reflexivity].
  assert (exists b, (b <= rl_a l i)%nat /\ ~ In (Z.of_nat b) y) as (b & Hb & N).
  { apply Classical_Prop.NNPP. intros N. apply H. intros b Hb. apply Hy. apply Classical_Prop.NNPP. intros N'. apply N. eauto. }
  apply (sorted_gap _ y Hs H0 b N). lia.
Qed.

Lemma fit_all idx : positions_covered L l idx ->
  mapM (fun p => match rounds_of l idx p with [] => Err ValueError | _ => Ok (ps_model ctrain l idx p) end) (seq 0 L) = Ok (tab L (ps_model ctrain l idx)).
Proof.
  intros H. apply mapM_Ok. intros p Hp. apply in_seq in Hp. specialize (H p ltac:(lia)). destruct (rounds_of l idx p); congruence.
Qed.

(** One fold: a position without rounds is a ValueError; otherwise the call succeeds exactly when the actions logged at
    each position are 0, 1, ..., m without a gap, and then returns the classifier's probability of the logged action;
    any gap is an IndexError. *)
Theorem C103_single_fold fold :
  (~ positions_covered L l (all_rounds (rl_n l)) -> ps_fit_predict cfit cproba K L models (tab (rl_n l) (rl_x l)) (tabZ (rl_n l) (rl_a l)) posarg 1 fold = Err ValueError) /\
  (positions_covered L l (all_rounds (rl_n l)) ->
   ((forall i, (i < rl_n l)%nat -> smaller_logged l (all_rounds (rl_n l)) i) ->
    ps_fit_predict cfit cproba K L models (tab (rl_n l) (rl_x l)) (tabZ (rl_n l) (rl_a l)) posarg 1 fold =
    Ok (tab L (ps_model ctrain l (all_rounds (rl_n l))),
        tab (rl_n l) (fun i => proba (ps_model ctrain l (all_rounds (rl_n l)) (rl_pos l i)) (rl_x l i) (Z.of_nat (rl_a l i))))) /\
   ((exists i, (i < rl_n l)%nat /\ ~ smaller_logged l (all_rounds (rl_n l)) i) ->
    ps_fit_predict cfit cproba K L models (tab (rl_n l) (rl_x l)) (tabZ (rl_n l) (rl_a l)) posarg 1 fold = Err IndexError)).
Proof.
  assert (E : ps_fit_predict cfit cproba K L models (tab (rl_n l) (rl_x l)) (tabZ (rl_n l) (rl_a l)) posarg 1 fold =
    (ms <- mapM (fun p => match rounds_of l (all_rounds (rl_n l)) p with [] => Err ValueError | _ => Ok (ps_model ctrain l (all_rounds (rl_n l)) p) end) (seq 0 L) ;;
     w <- ps_predict cproba L ms (tab (rl_n l) (rl_x l)) (tabZ (rl_n l) (rl_a l)) (Some (tabZ (rl_n l) (rl_pos l))) ;; Ok (ms, w))).
  { unfold ps_fit_predict. rewrite (feedback_ok0 _ K); cbn [bind].
    - rewrite (fit_position_ok L _ _ (rl_pos l) _ l); auto; try apply Hl. cbn [bind]. change (check_scalar_Z 1 (Some 1%Z) None) with (Ok tt). cbn [bind].
      change (Z.eqb 1 1) with true. cbv iota. rewrite (ps_fit_tab _ _ _ _ _ HC) by (auto; left; auto). reflexivity.
    - apply Hl.
    - apply Hl.
    - destruct Hq as [->|(_ & [->|(_ & q & ->)])]; eauto.
    - unfold eye. rewrite map_length, seq_length. auto. }
  rewrite E. split.
  - intros H. rewrite (mapM_Err_some _ _ ValueError); auto.
    + intros p _. destruct (rounds_of l (all_rounds (rl_n l)) p); eauto.
    + apply Classical_Pred_Type.not_all_ex_not in H as (p & H). assert (Hp : (p < L)%nat) by (apply Classical_Prop.NNPP; tauto).
      exists p. split; [apply in_seq; lia|]. destruct (rounds_of l (all_rounds (rl_n l)) p); auto. exfalso. apply H. intros _. discriminate.
  - intros H. rewrite fit_all by auto. cbn [bind]. rewrite (ps_predict_tab _ _ _ _ _ HC) by apply Hl. split.
    + intros Ha. rewrite (proj2 (forallb_forall _ _)).
      * cbn [bind]. do 2 f_equal. apply tab_ext. intros i Hi. apply right_column. auto.
      * intros i Hi. apply in_seq in Hi. apply right_column. apply Ha. lia.
    + intros (i & Hi & N). replace (forallb _ (all_rounds (rl_n l))) with false; [reflexivity|]. symmetry. apply not_true_is_false.
      rewrite forallb_forall. intros F.
      (* the largest action logged at this position lies beyond the columns *)
      assert (G : exists i', (i' < rl_n l)%nat /\ rl_pos l i' = rl_pos l i /\ forall j, (j < rl_n l)%nat -> rl_pos l j = rl_pos l i -> (rl_a l j <= rl_a l i')%nat).
      { clear -Hi. revert Hi. generalize (rl_n l) as n. intros n Hi.
        assert (G : forall m, (m <= n)%nat -> (exists i', (i' < n)%nat /\ rl_pos l i' = rl_pos l i /\ forall j, (j < m)%nat -> rl_pos l j = rl_pos l i -> (rl_a l j <= rl_a l i')%nat)).
        { induction m; intros Hmn. exists i. split; auto. split; auto. lia.
          destruct (IHm ltac:(lia)) as (i' & Hi' & E & Hmax). destruct (Nat.eq_dec (rl_pos l m) (rl_pos l i)) as [Em|Nm].
          - destruct (Nat.le_ge_cases (rl_a l m) (rl_a l i')).
            + exists i'. split; auto. split; auto. intros j Hj Ej. destruct (Nat.eq_dec j m) as [->|]; auto. apply Hmax; auto; lia.
            + exists m. split; [lia|]. split; auto. intros j Hj Ej. destruct (Nat.eq_dec j m) as [->|]; auto. specialize (Hmax j ltac:(lia) Ej). lia.
          - exists i'. split; auto. split; auto. intros j Hj Ej. destruct (Nat.eq_dec j m) as [->|]; [contradiction|]. apply Hmax; auto; lia. }
        apply (G n). auto. }
      destruct G as (i' & Hi' & Ei & Hmax). specialize (F i' ltac:(apply in_seq; lia)). unfold in_columns in F. apply Nat.ltb_lt in F.
      destruct (seen_sorted (all_rounds (rl_n l)) (rl_pos l i')) as (y & Hs & H0 & Hy).
      assert (exists b, (b <= rl_a l i')%nat /\ ~ In (Z.of_nat b) y) as (b & Hb & Nb).
      { apply Classical_Prop.NNPP. intros NN. apply N. intros b Hb. specialize (Hmax i Hi eq_refl).
        assert (In (Z.of_nat b) y) as Hby by (apply Classical_Prop.NNPP; intros X; apply NN; exists b; split; [lia|auto]).
        apply Hy in Hby as (j & Hj & E1 & E2). exists j. split; auto. split; congruence. }
      pose proof (sorted_gap _ y Hs H0 b Nb (rl_a l i') ltac:(lia)) as Hgt.
      assert (Hin : In (nth (rl_a l i') (classes (ps_model ctrain l (all_rounds (rl_n l)) (rl_pos l i'))) 0%Z) (classes (ps_model ctrain l (all_rounds (rl_n l)) (rl_pos l i')))) by (apply nth_In; auto).
      apply seen in Hin as (j & Hj & Ej & Ea). apply in_seq in Hj. specialize (Hmax j ltac:(lia) ltac:(congruence)). lia.
Qed.

Lemma ps_cross k fold : (2 <= k)%nat -> is_partition (rl_n l) k fold ->
  (forall j, (j < k)%nat -> positions_covered L l (outside (rl_n l) fold j)) ->
  ps_fit_predict cfit cproba K L models (tab (rl_n l) (rl_x l)) (tabZ (rl_n l) (rl_a l)) posarg (Z.of_nat k) fold =
  if forallb (fun i => in_columns classes (ps_model ctrain l (outside (rl_n l) fold (fold i))) l i) (all_rounds (rl_n l))
  then Ok (tab L (ps_model ctrain l (outside (rl_n l) fold (k - 1))),
           tab (rl_n l) (fun i => ps_at classes proba (ps_model ctrain l (outside (rl_n l) fold (fold i))) l i))
  else Err IndexError.
Proof.
  intros Hk Hpart Hcov. pose proof (partition_le _ _ _ Hpart) as Hkn.
  unfold ps_fit_predict. rewrite (feedback_ok0 _ K); cbn [bind].
  2: apply Hl. 2: apply Hl. 2: destruct Hq as [->|(_ & [->|(_ & q & ->)])]; eauto. 2: unfold eye; rewrite map_length, seq_length; auto.
  rewrite (fit_position_ok L _ _ (rl_pos l) _ l); auto; try apply Hl. cbn [bind].
  unfold check_scalar_Z. rewrite (proj2 (Z.ltb_ge _ _)) by lia. cbn [raise_if bind].
  rewrite (proj2 (Z.eqb_neq _ _)) by lia. unfold kfold. rewrite Nat2Z.id, tab_length. rewrite (proj2 (Nat.ltb_ge _ _)) by auto. cbn [bind].
  set (fit := fun (s : list C) tr => ctx <- take (tab (rl_n l) (rl_x l)) tr ;; act <- take (tabZ (rl_n l) (rl_a l)) tr ;;
     q <- take (tabZ (rl_n l) (rl_pos l)) tr ;; ps_fit cfit K L s ctx act (Some q)).
  set (pred := fun (s : list C) te => ctx <- take (tab (rl_n l) (rl_x l)) te ;; act <- take (tabZ (rl_n l) (rl_a l)) te ;;
     q <- take (tabZ (rl_n l) (rl_pos l)) te ;; ps_predict cproba L s ctx act (Some q)).
  set (fresh := fun idx => tab L (ps_model ctrain l idx)).
  set (good := fun s : list C => length s = L).
  assert (Hout : forall j i, In i (outside (rl_n l) fold j) -> (i < rl_n l)%nat) by (intros j i Hi; apply filter_In in Hi as [Hi _]; apply in_seq in Hi; lia).
  assert (Hins : forall j i, In i (inside (rl_n l) fold j) -> (i < rl_n l)%nat) by (intros j i Hi; apply filter_In in Hi as [Hi _]; apply in_seq in Hi; lia).
  assert (Hfit : forall s j, good s -> In j (seq 0 k) -> fit s (outside (rl_n l) fold j) = Ok (fresh (outside (rl_n l) fold j))).
  { intros s j Hs Hj. apply in_seq in Hj. unfold fit, tabZ. rewrite !take_tab by (apply Hout). cbn [bind].
    rewrite (ps_fit_map _ _ _ _ _ HC); auto. apply fit_all. apply Hcov. lia. specialize (Hcov j ltac:(lia) 0%nat HL). intros E. rewrite E in Hcov. apply Hcov. reflexivity. apply Hout. }
  assert (Hgood : forall j, In j (seq 0 k) -> good (fresh (outside (rl_n l) fold j))) by (intros; apply tab_length).
  assert (Hpred : forall j, pred (fresh (outside (rl_n l) fold j)) (inside (rl_n l) fold j) =
     if forallb (in_columns classes (ps_model ctrain l (outside (rl_n l) fold j)) l) (inside (rl_n l) fold j)
     then Ok (map (ps_at classes proba (ps_model ctrain l (outside (rl_n l) fold j)) l) (inside (rl_n l) fold j)) else Err IndexError).
  { intros j. unfold pred, tabZ. rewrite !take_tab by (apply Hins). cbn [bind].
    apply (ps_predict_map _ _ _ _ _ HC). intros i Hi. apply Hl. apply (Hins j). auto. }
  (* the state carried by the generic loop is an index of the trained models; recover it from the models *)
  set (md := fun s : list C => fun p => nth p s (ps_model ctrain l [] p)).
  set (h := fun s i => ps_at classes proba (md s) l i).
  assert (Hmd : forall idx i, (i < rl_n l)%nat -> h (fresh idx) i = ps_at classes proba (ps_model ctrain l idx) l i).
  { intros idx i Hi. unfold h, ps_at, md, fresh. rewrite nth_tab by (apply Hl; auto). reflexivity. }
  assert (EL : loopM (fun mw tt => ctx <- take (tab (rl_n l) (rl_x l)) (fst tt) ;; act <- take (tabZ (rl_n l) (rl_a l)) (fst tt) ;;
      q <- take (tabZ (rl_n l) (rl_pos l)) (fst tt) ;; models' <- ps_fit cfit K L (fst mw) ctx act (Some q) ;;
      ctx' <- take (tab (rl_n l) (rl_x l)) (snd tt) ;; act' <- take (tabZ (rl_n l) (rl_a l)) (snd tt) ;; q' <- take (tabZ (rl_n l) (rl_pos l)) (snd tt) ;;
      w <- ps_predict cproba L models' ctx' act' (Some q') ;; filled <- put (snd mw) (snd tt) w ;; Ok (models', filled))
      (map (fun j => (outside (rl_n l) fold j, inside (rl_n l) fold j)) (seq 0 k)) (models, tab (rl_n l) (fun _ => Fin 0)) =
    loopM (fun mw tt => s' <- fit (fst mw) (fst tt) ;; w <- pred s' (snd tt) ;; v <- put (snd mw) (snd tt) w ;; Ok (s', v))
      (map (fun j => (outside (rl_n l) fold j, inside (rl_n l) fold j)) (seq 0 k)) (models, tab (rl_n l) (fun _ => Fin 0))).
  { apply loopM_ext. intros [s v] tt _. unfold fit, pred. cbn [fst snd].
    destruct (take (tab (rl_n l) (rl_x l)) (fst tt)); [|reflexivity]. cbn [bind].
    destruct (take (tabZ (rl_n l) (rl_a l)) (fst tt)); [|reflexivity]. cbn [bind].
    destruct (take (tabZ (rl_n l) (rl_pos l)) (fst tt)); [|reflexivity]. cbn [bind].
    destruct (ps_fit cfit K L s _ _ _); [|reflexivity]. cbn [bind].
    destruct (take (tab (rl_n l) (rl_x l)) (snd tt)); [|reflexivity]. cbn [bind].
    destruct (take (tabZ (rl_n l) (rl_a l)) (snd tt)); [|reflexivity]. cbn [bind].
    destruct (take (tabZ (rl_n l) (rl_pos l)) (snd tt)); reflexivity. }
  rewrite repeat_tab. etransitivity; [exact EL|]. clear EL.
  destruct (forallb (fun i => in_columns classes (ps_model ctrain l (outside (rl_n l) fold (fold i))) l i) (all_rounds (rl_n l))) eqn:E.
  - rewrite forallb_forall in E. rewrite (cross_loop good fit pred (rl_n l) fold fresh h); auto.
    + f_equal. f_equal.
      * destruct k; [lia|]. rewrite (seq_S k 0), map_app. cbn [map]. rewrite last_last. replace (S k - 1)%nat with k by lia. reflexivity.
      * apply tab_ext. intros i Hi. rewrite existsb_seq by (apply Hpart; auto). apply Hmd. auto.
    + intros j _. rewrite Hpred. rewrite (proj2 (forallb_forall _ _)).
      * f_equal. apply map_ext_in. intros i Hi. symmetry. apply Hmd. apply (Hins j). auto.
      * intros i Hi. assert (Hi' := Hins j i Hi). apply filter_In in Hi as [_ Ef]. apply Nat.eqb_eq in Ef. subst j. apply E. apply in_seq. lia.
  - apply (cross_loop_err good fit pred (rl_n l) fold fresh h); auto.
    + intros j _. rewrite Hpred. destruct (forallb _ (inside _ _ _)); auto. left. f_equal. apply map_ext_in. intros i Hi. symmetry. apply Hmd. apply (Hins j). auto.
    + assert (exists i, In i (all_rounds (rl_n l)) /\ in_columns classes (ps_model ctrain l (outside (rl_n l) fold (fold i))) l i = false) as (i & Hi & Ei).
      { apply Classical_Prop.NNPP. intros N. apply not_true_iff_false in E. apply E. apply forallb_forall. intros i Hi. apply not_false_is_true. eauto. }
      apply in_seq in Hi. exists (fold i). split. apply in_seq. split; [lia|]. apply Hpart. lia.
      rewrite Hpred. replace (forallb _ (inside _ _ _)) with false; auto. symmetry. apply not_true_is_false. rewrite forallb_forall. intros F.
      rewrite F in Ei. discriminate. apply filter_In. split. apply in_seq; lia. apply Nat.eqb_refl.
Qed.

(** Several folds, every training set covering every position.  The estimate for round i is read from the model trained
    on the rounds of its position outside its fold.  If that training set contains every action up to the logged one
    for every round, the call succeeds and every estimate is the model's probability of the logged action. *)
Theorem C103_cross_fitted k fold : (2 <= k)%nat -> is_partition (rl_n l) k fold ->
  (forall j, (j < k)%nat -> positions_covered L l (outside (rl_n l) fold j)) ->
  (forall i, (i < rl_n l)%nat -> smaller_logged l (outside (rl_n l) fold (fold i)) i) ->
  ps_fit_predict cfit cproba K L models (tab (rl_n l) (rl_x l)) (tabZ (rl_n l) (rl_a l)) posarg (Z.of_nat k) fold =
  Ok (tab L (ps_model ctrain l (outside (rl_n l) fold (k - 1))),
      tab (rl_n l) (fun i => proba (ps_model ctrain l (outside (rl_n l) fold (fold i)) (rl_pos l i)) (rl_x l i) (Z.of_nat (rl_a l i)))).
Proof.
  intros Hk Hpart Hcov Hsm. rewrite ps_cross by auto. rewrite (proj2 (forallb_forall _ _)).
  - do 2 f_equal. apply tab_ext. intros i Hi. apply right_column. auto.
  - intros i Hi. apply in_seq in Hi. apply right_column. apply Hsm. lia.
Qed.

(** In general: whenever the call succeeds, a round some smaller action of which is missing from its training set is
    given the probability of a larger action than the one that was taken. *)
Theorem C103_cross_fit_values k fold ms w i : (2 <= k)%nat -> is_partition (rl_n l) k fold ->
  (forall j, (j < k)%nat -> positions_covered L l (outside (rl_n l) fold j)) ->
  ps_fit_predict cfit cproba K L models (tab (rl_n l) (rl_x l)) (tabZ (rl_n l) (rl_a l)) posarg (Z.of_nat k) fold = Ok (ms, w) ->
  (i < rl_n l)%nat ->
  exists c, nth i w NaN = proba (ps_model ctrain l (outside (rl_n l) fold (fold i)) (rl_pos l i)) (rl_x l i) c /\
    (smaller_logged l (outside (rl_n l) fold (fold i)) i -> c = Z.of_nat (rl_a l i)) /\
    (~ smaller_logged l (outside (rl_n l) fold (fold i)) i -> (Z.of_nat (rl_a l i) < c)%Z).
Proof.
  intros Hk Hpart Hcov. rewrite ps_cross by auto.
  destruct (forallb (fun i => in_columns classes (ps_model ctrain l (outside (rl_n l) fold (fold i))) l i) (all_rounds (rl_n l))) eqn:E; [|discriminate].
  rewrite forallb_forall in E. intros H Hi. injection H as <- <-. rewrite nth_tab by auto.
  exists (nth (rl_a l i) (classes (ps_model ctrain l (outside (rl_n l) fold (fold i)) (rl_pos l i))) 0%Z). split; [reflexivity|].
  destruct (seen_sorted (outside (rl_n l) fold (fold i)) (rl_pos l i)) as (y & Hs & H0 & Hy). split; intros HS.
  - apply (sorted_full _ y _ Hs H0). intros b Hb. apply Hy, HS, Hb.
  - specialize (E i ltac:(apply in_seq; lia)). apply Nat.ltb_lt in E.
    assert (exists b, (b <= rl_a l i)%nat /\ ~ In (Z.of_nat b) y) as (b & Hb & N).
    { apply Classical_Prop.NNPP. intros N. apply HS. intros b Hb. apply Hy. apply Classical_Prop.NNPP. intros N'. apply N. eauto. }
    apply (sorted_gap _ y Hs H0 b N). lia.
Qed.
End PropensityModel.

(** A classifier that estimates action frequencies.  Rounds 0 and 1 (fold 0) take action 0, which no other round
    takes: their estimated propensity, 1/2, is the frequency of action 1 in the other folds; the frequency of action 0
    there is 0.  With every action in every training set the estimates are the frequencies of the logged actions. *)
Definition frequency (m : list Z) (x : list num) (c : Z) : num := Fin (INR (count_occ Z.eq_dec m c) / INR (length m)).
Definition freq_fit (m : list Z) (X : list (list num)) (y : list Z) : res (list Z) := Ok y.
Definition freq_proba (m : list Z) (X : list (list num)) : res (list (list num)) := Ok (map (fun x => map (frequency m x) (np_unique m)) X).

Lemma freq_plain : plain_classifier freq_fit freq_proba (fun _ y => y) np_unique frequency.
Proof.
  split; [|split].
  - reflexivity.
  - intros _ y. split.
    + intros i j Hij. pose proof (np_unique_sorted y) as Hs. revert i j Hij. induction Hs as [|b bs Hs IH Hb]; intros i j Hij; [simpl in Hij; lia|].
      destruct j; [lia|]. destruct i; cbn [nth length] in *; [|apply IH; lia]. rewrite Forall_forall in Hb. apply Hb, nth_In. lia.
    + intros z. apply np_unique_In.
  - reflexivity.
Qed.

Ltac six i := destruct i as [|i]; [|destruct i as [|i]; [|destruct i as [|i]; [|destruct i as [|i]; [|destruct i as [|i]; [|destruct i as [|i]; [|exfalso; lia]]]]]].

Definition gap_log (a : nat -> nat) : rlog := mkLog 6 (fun _ => [Fin 0]) a (fun _ => Fin 0) (fun _ => 1) (fun _ => 0%nat) (fun _ _ _ => 0).

Example C103_ex :
  let l1 := gap_log (fun i => nth i [0; 0; 1; 2; 1; 2] 0)%nat in
  let l2 := gap_log (fun i => nth i [0; 1; 1; 0; 0; 1] 0)%nat in
  let fold := (fun i => Nat.div i 2) in
  clog_ok 3 1 l1 /\ clog_ok 3 1 l2 /\ position_is 1 l1 None /\ is_partition 6 3 fold /\
  (forall j, (j < 3)%nat -> positions_covered 1 l1 (outside 6 fold j)) /\
  ~ smaller_logged l1 (outside 6 fold (fold 0%nat)) 0 /\
  (forall i, (i < 6)%nat -> smaller_logged l2 (outside 6 fold (fold i)) i) /\
  (exists ms, ps_fit_predict freq_fit freq_proba 3 1 [[]] (tab 6 (rl_x l1)) (tabZ 6 (rl_a l1)) None 3 fold =
    Ok (ms, map Fin [INR 2 / INR 4; INR 2 / INR 4; INR 1 / INR 4; INR 1 / INR 4; INR 1 / INR 4; INR 1 / INR 4])) /\
  (exists ms, ps_fit_predict freq_fit freq_proba 3 1 [[]] (tab 6 (rl_x l2)) (tabZ 6 (rl_a l2)) None 3 fold =
    Ok (ms, repeat (Fin (INR 2 / INR 4)) 6)).
Proof.
  cbv zeta. set (l1 := gap_log _). set (l2 := gap_log _).
  assert (K1 : clog_ok 3 1 l1). { split; simpl; intros; [lia| |lia]. six i; simpl; lia. }
  assert (K2 : clog_ok 3 1 l2). { split; simpl; intros; [lia| |lia]. six i; simpl; lia. }
  assert (Q1 : forall a, position_is 1 (gap_log a) None). { intros a. right. split. simpl; auto. left. auto. }
  assert (P : is_partition 6 3 (fun i => Nat.div i 2)).
  { split. intros i Hi. six i; simpl; lia. intros j Hj. exists (2 * j)%nat. split; [lia|]. rewrite Nat.mul_comm. apply Nat.div_mul. lia. }
  assert (V1 : forall j, (j < 3)%nat -> positions_covered 1 l1 (outside 6 (fun i => Nat.div i 2) j)). { intros j Hj p Hp. replace p with 0%nat by lia. six j; discriminate. }
  assert (V2 : forall j, (j < 3)%nat -> positions_covered 1 l2 (outside 6 (fun i => Nat.div i 2) j)). { intros j Hj p Hp. replace p with 0%nat by lia. six j; discriminate. }
  split; [auto|]. split; [auto|]. split; [apply Q1|]. split; [auto|]. split; [auto|].
  assert (S2 : forall i, (i < 6)%nat -> smaller_logged l2 (outside 6 (fun i => Nat.div i 2) (Nat.div i 2)) i).
  { intros i Hi b Hb.
    assert (Hb' : b = 0%nat \/ b = 1%nat) by (six i; simpl in Hb; lia).
    destruct Hb' as [-> | ->].
    - exists (if Nat.eqb (Nat.div i 2) 0 then 3 else 0)%nat. six i; simpl; tauto.
    - exists (if Nat.eqb (Nat.div i 2) 0 then 2 else 1)%nat. six i; simpl; tauto. }
  split; [|split; [auto|split]].
  - intros H. destruct (H 0%nat) as (i & Hi & _ & E). simpl; lia. simpl in Hi. intuition (subst; simpl in E; discriminate).
  - eexists. change 3%Z with (Z.of_nat 3). change 6%nat with (rl_n l1).
    rewrite (ps_cross _ _ _ _ _ freq_plain 3 1 l1 [[]] None) by (auto; apply Q1). reflexivity.
  - eexists. change 3%Z with (Z.of_nat 3). change 6%nat with (rl_n l2).
    rewrite (C103_cross_fitted _ _ _ _ _ freq_plain 3 1 l2 [[]] None) by (auto; apply Q1). reflexivity.
Qed.

Print Assumptions C54_out_of_fold.
Print Assumptions C54_single_fold.
Print Assumptions C54_missing_position.
Print Assumptions C54_fold_count.
Print Assumptions C54_own_round_irrelevant.
Print Assumptions C54_warm_start_leaks.
Print Assumptions C55_training_sets.
Print Assumptions C55_weights.
Print Assumptions C55_other_positions_irrelevant.
Print Assumptions C55_position_required.
Print Assumptions C56_always_rejected.
Print Assumptions C57_zeros.
Print Assumptions C103_single_fold.
Print Assumptions C103_cross_fitted.
Print Assumptions C103_cross_fit_values.
