(** * L_Logistic: lemmas about the logistic contextual policies. *)

From Coq Require Import Reals List ZArith Lia Lra Bool Permutation.
From Coquelicot Require Import Coquelicot.
From Verif Require Import Num NpList M_Utils M_Slate M_Multi M_Embed M_Policy M_Linear M_Logistic
  S_Base S_Tuning S_Policy S_Linear S_Logistic L_Num L_Base L_Tuning L_Embed L_Policy L_Linear.
Import ListNotations.
Open Scope R_scope.

Lemma exp_pos1 x : 0 < 1 + exp x.
Proof. pose proof (exp_pos x). lra. Qed.

Lemma vdot_tab d x y : vdot (tabF d x) (tabF d y) = Ok (Fin (dot d x y)).
Proof.
  unfold vdot, tabF. rewrite !tab_length, Nat.eqb_refl, combine_tab, map_tab. simpl fst. simpl snd.
  change (tab d (fun i => nmul (Fin (x i)) (Fin (y i)))) with (tabF d (fun i => x i * y i)). rewrite nsum_tabF. reflexivity.
Qed.
Lemma mat_dot_tab n d X w : mat_dot (tab2F n d X) (tabF d w) = Ok (tabF n (fun i => dot d (X i) w)).
Proof. unfold mat_dot, tab2F. unfold tabF at 3. apply mapM_tab. intros i Hi. apply vdot_tab. Qed.

Lemma bcast2_F (f : num -> num -> num) (g : R -> R -> R) n a b :
  (forall i, (i < n)%nat -> f (Fin (a i)) (Fin (b i)) = Fin (g (a i) (b i))) ->
  bcast2 f (tabF n a) (tabF n b) = Ok (tabF n (fun i => g (a i) (b i))).
Proof. intros H. unfold tabF. rewrite bcast2_tab. f_equal. apply tab_ext. auto. Qed.
Lemma map_F (f : num -> num) (g : R -> R) n a :
  (forall i, (i < n)%nat -> f (Fin (a i)) = Fin (g (a i))) -> map f (tabF n a) = tabF n (fun i => g (a i)).
Proof. intros H. unfold tabF. rewrite map_tab. apply tab_ext. auto. Qed.

Lemma nlog_exp v : nlog (nadd (Fin 1) (nexp (Fin v))) = Fin (ln (1 + exp v)).
Proof. cbn [nexp nadd]. apply nlog_Fin. apply exp_pos1. Qed.

Lemma lr_loss_ok al d n X y q m w :
  lr_loss (mkMblr al d (tabF d m) (tabF d q)) (tab2F n d X) (tabF n y) (tabF d w) = Ok (Fin (log_loss d n X y q m w)).
Proof.
  unfold lr_loss. cbn [lr_m lr_q].
  rewrite (bcast2_F nsub Rminus) by reflexivity. cbn [bind].
  rewrite (bcast2_F nmul Rmult) by reflexivity. cbn [bind].
  rewrite vdot_tab. cbn [bind]. rewrite mat_dot_tab. cbn [bind].
  rewrite (map_F nopp Ropp) by reflexivity. rewrite (bcast2_F nmul Rmult) by reflexivity. cbn [bind].
  rewrite (map_F (fun v => nlog (nadd (Fin 1) (nexp v))) (fun v => ln (1 + exp v))) by (intros; apply nlog_exp).
  rewrite nsum_tabF. cbn [nmul nadd]. unfold log_loss. repeat f_equal. apply sumn_ext. intros. ring.
Qed.

Lemma transpose_tab n d X : (0 < n)%nat -> transpose (tab2F n d X) = tab2F d n (fun j i => X i j).
Proof.
  intros Hn. unfold transpose.
  assert (E : (match tab2F n d X with [] => 0%nat | r :: _ => length r end) = d).
  { unfold tab2F. destruct n; [lia|]. rewrite tab_S_first. unfold tabF. apply tab_length. }
  rewrite E. apply tab_ext. intros j Hj. unfold tab2F. rewrite map_tab. unfold tabF at 2. apply tab_ext. intros i Hi.
  unfold nth_num, tabF. rewrite nth_tab by auto. reflexivity.
Qed.

Definition log_grad (d n : nat) (X : nat -> nat -> R) (y q m w : nat -> R) (j : nat) : R :=
  q j * (w j - m j) + -1 * sumn n (fun i => y i * X i j / (1 + exp (y i * dot d (X i) w))).

Lemma lr_grad_ok al d n X y q m w : (0 < n)%nat ->
  lr_grad (mkMblr al d (tabF d m) (tabF d q)) (tab2F n d X) (tabF n y) (tabF d w) = Ok (tabF d (log_grad d n X y q m w)).
Proof.
  intros Hn. unfold lr_grad. cbn [lr_m lr_q].
  rewrite (bcast2_F nsub Rminus) by reflexivity. cbn [bind].
  rewrite (bcast2_F nmul Rmult) by reflexivity. cbn [bind].
  rewrite mat_dot_tab. cbn [bind]. rewrite (bcast2_F nmul Rmult n y) by reflexivity. cbn [bind].
  rewrite transpose_tab by auto. unfold tab2F.
  rewrite (mapM_tab d _ _ (fun j => tabF n (fun i => y i * X i j))) by (intros; apply (bcast2_F nmul Rmult); reflexivity).
  cbn [bind].
  rewrite (map_F (fun v => nadd (Fin 1) (nexp v)) (fun v => 1 + exp v)) by reflexivity.
  rewrite (mapM_tab d _ _ (fun j => tabF n (fun i => y i * X i j / (1 + exp (y i * dot d (X i) w))))).
  2:{ intros j Hj. apply (bcast2_F ndiv Rdiv n (fun i => y i * X i j)). intros i Hi. apply ndiv_Fin. apply Rgt_not_eq, exp_pos1. }
  cbn [bind]. rewrite map_tab.
  rewrite (tab_ext d _ (fun j => Fin (-1 * sumn n (fun i => y i * X i j / (1 + exp (y i * dot d (X i) w)))))).
  2:{ intros j Hj. rewrite nsum_tabF. reflexivity. }
  match goal with |- bcast2 _ _ (tab d (fun j => Fin (@?f j))) = _ => change (tab d (fun j => Fin (f j))) with (tabF d f) end.
  apply (bcast2_F nadd Rplus d (fun j => q j * (w j - m j))). reflexivity.
Qed.

(** The gradient differentiates the loss. *)
Lemma dot_with_coord d u w j t : (j < d)%nat -> dot d u (with_coord w j t) = dot d u w + u j * (t - w j).
Proof.
  intros Hj. unfold dot. induction d; [lia|]. simpl. destruct (Nat.eq_dec j d) as [->|Hne].
  - unfold with_coord at 2. rewrite Nat.eqb_refl.
    rewrite (sumn_ext d _ (fun i => u i * w i)). lra. intros i Hi. unfold with_coord. destruct (Nat.eqb_spec i d); [lia|auto].
  - rewrite IHd by lia. unfold with_coord. destruct (Nat.eqb_spec d j); [lia|]. lra.
Qed.

Lemma is_derive_sumn n (f : nat -> R -> R) (df : nat -> R) t :
  (forall i, (i < n)%nat -> is_derive (f i) t (df i)) -> is_derive (fun t => sumn n (fun i => f i t)) t (sumn n df).
Proof.
  induction n; intros H; simpl. apply (is_derive_const (V := R_NormedModule)).
  apply (is_derive_plus (V := R_NormedModule)); auto.
Qed.

Lemma grad_derives d n X y q m w j : (j < d)%nat ->
  is_derive (fun t => log_loss d n X y q m (with_coord w j t)) (w j) (log_grad d n X y q m w j).
Proof.
  intros Hj. unfold log_loss, log_grad. apply (is_derive_plus (V := R_NormedModule)).
  - evar_last. apply is_derive_scal. apply (is_derive_sumn d _ (fun k => if Nat.eqb k j then 2 * q j * (w j - m j) else 0)).
    + intros k Hk. unfold with_coord. destruct (Nat.eqb_spec k j) as [->|Hne].
      * auto_derive; auto. ring.
      * auto_derive; auto.
    + rewrite (sumn_ext d _ (fun k => delta j k * (2 * q j * (w j - m j)))).
      2:{ intros k Hk. unfold delta. rewrite Nat.eqb_sym. destruct (Nat.eqb j k); lra. }
      rewrite sumn_delta by auto. simpl. lra.
  - evar_last. apply (is_derive_sumn n _ (fun i => - (y i * X i j / (1 + exp (y i * dot d (X i) w))))).
    + intros i Hi. apply (is_derive_ext (fun t => ln (1 + exp (- y i * (dot d (X i) w + X i j * (t - w j)))))).
      { intros t. rewrite dot_with_coord by auto. reflexivity. }
      auto_derive. apply exp_pos1.
      replace (w j + - w j) with 0 by ring. rewrite Rmult_0_r, Rplus_0_r.
      set (z := dot d (X i) w). replace (- y i * z) with (- (y i * z)) by ring. rewrite exp_Ropp.
      pose proof (exp_pos (y i * z)). field. split; lra.
    + rewrite <- sumn_scal. apply sumn_ext. intros. ring.
Qed.

(** Value and effect of a fit. *)
Lemma fit_prob_range d x m : 0 < fit_prob d x m < 1.
Proof.
  unfold fit_prob. pose proof (exp_pos (1 + dot d x m)). split. apply Rinv_0_lt_compat; lra.
  assert (/ (1 + exp (1 + dot d x m)) < / 1) by (apply Rinv_lt_contravar; lra). rewrite Rinv_1 in *. lra.
Qed.
Lemma fit_precision_ge d n X q m j : q j <= fit_precision d n X q m j.
Proof.
  unfold fit_precision. assert (0 <= sumn n (fun i => fit_prob d (X i) m * (1 - fit_prob d (X i) m) * X i j ^ 2)); [|lra].
  apply sumn_nonneg. intros i Hi. pose proof (fit_prob_range d (X i) m). apply Rmult_le_pos; [|apply pow2_ge_0]. apply Rmult_le_pos; lra.
Qed.
Lemma lr_fit_ok minimize al d n X y q m w : (0 < n)%nat -> (0 < d)%nat ->
  minimize (lr_loss (mkMblr al d (tabF d m) (tabF d q)) (tab2F n d X) (tabF n y))
           (lr_grad (mkMblr al d (tabF d m) (tabF d q)) (tab2F n d X) (tabF n y)) (tabF d m) = tabF d w ->
  lr_fit minimize (mkMblr al d (tabF d m) (tabF d q)) (tab2F n d X) (tabF n y) =
  Ok (mkMblr al d (tabF d w) (tabF d (fit_precision d n X q w))).
Proof.
  intros Hn Hd Hm. unfold lr_fit. cbn [lr_m lr_q lr_alpha lr_dim]. rewrite Hm. unfold lr_P. rewrite mat_dot_tab. cbn [bind].
  rewrite (map_F (fun v => ndiv (Fin 1) (nadd (Fin 1) (nexp (nadd (Fin 1) v)))) (fun v => 1 / (1 + exp (1 + v)))).
  2:{ intros i Hi. cbn [nadd nexp]. apply ndiv_Fin. apply Rgt_not_eq, exp_pos1. }
  rewrite (map_F (fun v => nmul v (nsub (Fin 1) v)) (fun v => v * (1 - v))) by reflexivity.
  assert (E : map (map nsqr) (tab2F n d X) = tab2F n d (fun i j => X i j * X i j)).
  { unfold tab2F. rewrite map_tab. apply tab_ext. intros i Hi. apply (map_F nsqr (fun v => v * v)). reflexivity. }
  rewrite E, row_times_tab by auto. cbn [bind]. rewrite (bcast2_F nadd Rplus) by reflexivity. cbn [bind]. do 2 f_equal.
  unfold tabF. apply tab_ext. intros j Hj. f_equal. unfold fit_precision. f_equal. apply sumn_ext. intros i Hi. unfold fit_prob. unfold Rdiv. ring.
Qed.

Definition round0 : round := mkRound 0 0 (fun _ => 0).
Lemma map_rounds {A} (f : round -> A) l : map f l = tab (length l) (fun i => f (nth i l round0)).
Proof. rewrite (list_tab l round0) at 1. rewrite map_tab. reflexivity. Qed.

Lemma concat_single {A} (f : round -> A) l : concat (map (fun e => [f e]) l) = map f l.
Proof. induction l; simpl; auto. f_equal. auto. Qed.

Lemma fit_loop_ok minimize d K : forall (o o' : nat -> mblr) (l : nat -> list round),
  (forall a, (a < K)%nat -> fit_rounds minimize d (o a) (l a) = Ok (o' a)) ->
  fit_loop minimize (tab K o) (tab K (fun a => map (fun e => Fin (rd_reward e)) (l a)))
                    (tab K (fun a => map (fun e => [tabF d (rd_x e)]) (l a))) = (tab K o', Ok tt).
Proof.
  induction K; intros o o' l H. reflexivity. rewrite !tab_S_first. cbn [fit_loop].
  rewrite (IHK (fun a => o (S a)) (fun a => o' (S a)) (fun a => l (S a))) by (intros; apply H; lia).
  assert (H0 := H 0%nat ltac:(lia)). unfold fit_rounds in H0. destruct (l 0%nat) as [|e t] eqn:E.
  - cbn [map]. injection H0 as ->. reflexivity.
  - rewrite concat_single, H0. cbn [map]. reflexivity.
Qed.

Definition fitted_m (opt : (list num -> res num) -> (list num -> res (list num)) -> list num -> nat -> R)
    al d m q (l : list round) : nat -> R :=
  match l with
  | [] => m
  | _ => let o := mkMblr al d (tabF d m) (tabF d q) in
         let X := tab2F (length l) d (fun i => rd_x (nth i l round0)) in
         let y := tabF (length l) (fun i => rd_reward (nth i l round0)) in
         opt (lr_loss o X y) (lr_grad o X y) (tabF d m)
  end.
Definition fitted_q opt al d m q (l : list round) : nat -> R :=
  match l with
  | [] => q
  | _ => fit_precision d (length l) (fun i => rd_x (nth i l round0)) q (fitted_m opt al d m q l)
  end.
Lemma fitted_q_ge opt al d m q l j : q j <= fitted_q opt al d m q l j.
Proof. unfold fitted_q. destruct l. lra. apply fit_precision_ge. Qed.

Lemma fit_rounds_ok minimize opt al d m q l : (0 < d)%nat ->
  (forall Lf G x, minimize Lf G x = tabF d (opt Lf G x)) ->
  fit_rounds minimize d (mkMblr al d (tabF d m) (tabF d q)) l =
  Ok (mkMblr al d (tabF d (fitted_m opt al d m q l)) (tabF d (fitted_q opt al d m q l))).
Proof.
  intros Hd Hm. destruct l as [|e t]. reflexivity.
  unfold fit_rounds. rewrite !map_rounds.
  change (tab (length (e :: t)) (fun i => tabF d (rd_x (nth i (e :: t) round0)))) with (tab2F (length (e :: t)) d (fun i => rd_x (nth i (e :: t) round0))).
  change (tab (length (e :: t)) (fun i => Fin (rd_reward (nth i (e :: t) round0)))) with (tabF (length (e :: t)) (fun i => rd_reward (nth i (e :: t) round0))).
  rewrite (lr_fit_ok minimize al d _ _ _ q m (fitted_m opt al d m q (e :: t))); auto. simpl; lia. rewrite Hm. reflexivity.
Qed.

Lemma fit_batches_snoc minimize K d a b : forall bs o,
  fit_batches minimize K d a o (bs ++ [b]) = (o' <- fit_batches minimize K d a o bs ;; fit_rounds minimize d o' (rounds_of K a b)).
Proof.
  induction bs as [|c bs IH]; intros o; simpl.
  - destruct (fit_rounds minimize d o (rounds_of K a b)); reflexivity.
  - destruct (fit_rounds minimize d o (rounds_of K a c)); cbn [bind]; auto.
Qed.

Lemma skipn_skipn' {A} n m (l : list A) : skipn n (skipn m l) = skipn (m + n) l.
Proof.
  revert l. induction m; intros l; simpl; auto. destruct l. apply skipn_nil. auto.
Qed.
Lemma skipn_app_le {A} n (l1 l2 : list A) : (n <= length l1)%nat -> skipn n (l1 ++ l2) = skipn n l1 ++ l2.
Proof. intros H. rewrite skipn_app. replace (n - length l1)%nat with 0%nat by lia. reflexivity. Qed.
Lemma firstn_app_le {A} n (l1 l2 : list A) : (n <= length l1)%nat -> firstn n (l1 ++ l2) = firstn n l1.
Proof. intros H. rewrite firstn_app. replace (n - length l1)%nat with 0%nat by lia. simpl. apply app_nil_r. Qed.

Lemma batches_snoc {A} B (h : list A) e : (0 < B)%nat ->
  if Nat.eqb (S (length h) mod B) 0
  then batches B (h ++ [e]) = batches B h ++ [pending B h ++ [e]] /\ pending B (h ++ [e]) = []
  else batches B (h ++ [e]) = batches B h /\ pending B (h ++ [e]) = pending B h ++ [e].
Proof.
  intros HB. unfold batches, pending. rewrite app_length. simpl length. rewrite Nat.add_1_r.
  pose proof (div_mul_S (length h) B HB) as E.
  pose proof (Nat.div_mod (length h) B ltac:(lia)) as E2. pose proof (Nat.mod_upper_bound (length h) B ltac:(lia)) as E2'.
  pose proof (Nat.div_mod (S (length h)) B ltac:(lia)) as E3. pose proof (Nat.mod_upper_bound (S (length h)) B ltac:(lia)) as E3'.
  set (qn := (S (length h) / B)%nat) in *. set (q0 := (length h / B)%nat) in *.
  set (m1 := (S (length h) mod B)%nat) in *. set (m0 := (length h mod B)%nat) in *. clearbody qn q0 m1 m0.
  destruct (Nat.eqb_spec m1 0) as [Hb|Hb].
  - assert (Hq : qn = S q0) by nia. split.
    + rewrite Hq, tab_S. f_equal.
      * apply tab_ext. intros k Hk. assert (S k * B <= q0 * B)%nat by (apply Nat.mul_le_mono_r; lia).
        rewrite skipn_app_le by nia. rewrite firstn_app_le; auto. rewrite skipn_length. nia.
      * f_equal. rewrite skipn_app_le by nia. rewrite firstn_all2; auto. rewrite app_length, skipn_length. simpl. nia.
    + rewrite E. apply skipn_all2. rewrite app_length. simpl. lia.
  - assert (Hq : qn = q0) by nia. split.
    + rewrite Hq. apply tab_ext. intros k Hk. assert (S k * B <= q0 * B)%nat by (apply Nat.mul_le_mono_r; lia).
      rewrite skipn_app_le by nia. rewrite firstn_app_le; auto. rewrite skipn_length. nia.
    + rewrite Hq. apply skipn_app_le. nia.
Qed.

Lemma rounds_of_snoc K a h e : rounds_of K a (h ++ [e]) =
  if Nat.eqb (slot K (rd_action e)) a then rounds_of K a h ++ [e] else rounds_of K a h.
Proof. unfold rounds_of. rewrite filter_app. simpl. destruct (Nat.eqb _ a); auto. apply app_nil_r. Qed.

(** The object after a history. *)
Record log_after minimize (al lam : R) (d K L B : nat) (h : list round) (p : logp) : Prop := mkLogAfter {
  ga_dim : lg_dim p = d;
  ga_K : lg_n_actions p = K;
  ga_L : lg_len_list p = L;
  ga_B : lg_batch_size p = B;
  ga_n : lg_n_trial p = length h;
  ga_ac : lg_action_counts p = tabZ K (times K (map (fun e => (rd_action e, rd_reward e)) h));
  ga_rl : lg_reward_lists p = tab K (fun a => map (fun e => Fin (rd_reward e)) (rounds_of K a (pending B h)));
  ga_cl : lg_context_lists p = tab K (fun a => map (fun e => [tabF d (rd_x e)]) (rounds_of K a (pending B h)));
  ga_m : exists m q, lg_models p = tab K (fun a => mkMblr (Fin al) d (tabF d (m a)) (tabF d (q a))) /\
     (forall a j, lam <= q a j) /\
     (forall a, (a < K)%nat -> fit_batches minimize K d a (mkMblr (Fin al) d (tabF d (fun _ => 0)) (tabF d (fun _ => lam))) (batches B h)
                 = Ok (mkMblr (Fin al) d (tabF d (m a)) (tabF d (q a)))) }.

Definition q_le (K d : nat) (p p' : logp) : Prop := forall a, (a < K)%nat -> exists q q',
  lr_q (nth a (lg_models p) (mkMblr NaN 0 [] [])) = tabF d q /\
  lr_q (nth a (lg_models p') (mkMblr NaN 0 [] [])) = tabF d q' /\ forall j, q j <= q' j.

Lemma log_update_after minimize opt al lam d K L B h p e : (0 < d)%nat -> (0 < B)%nat ->
  (forall Lf G x, minimize Lf G x = tabF d (opt Lf G x)) ->
  log_after minimize al lam d K L B h p -> valid_action K (rd_action e) ->
  let u := log_update_params minimize p (rd_action e) (Fin (rd_reward e)) [tabF d (rd_x e)] in
  snd u = Ok tt /\ log_after minimize al lam d K L B (h ++ [e]) (fst u) /\ q_le K d p (fst u).
Proof.
  intros Hd HB Hmin [a1 a2 a3 a4 a5 a6 a7 a8 (m & q & E1 & Hq & Hf)] Hv. cbv zeta.
  destruct (np_index_valid K _ Hv) as [E Hs]. set (x := rd_x e). set (s := slot K (rd_action e)) in *.
  assert (Eac : set_nth (lg_action_counts p) s (nth s (lg_action_counts p) 0 + 1)%Z = tabZ K (times K (map (fun e => (rd_action e, rd_reward e)) (h ++ [e])))).
  { rewrite a6. unfold tabZ. rewrite nth_tab, set_nth_tab by auto. apply tab_ext. intros i Hi. rewrite map_app, times_app. simpl.
    fold s. rewrite (Nat.eqb_sym s i). destruct (Nat.eqb_spec i s); subst; lia. }
  assert (Erl : set_nth (lg_reward_lists p) s (nth s (lg_reward_lists p) [] ++ [Fin (rd_reward e)]) =
                tab K (fun a => map (fun e => Fin (rd_reward e)) (rounds_of K a (pending B h ++ [e])))).
  { rewrite a7. rewrite nth_tab, set_nth_tab by auto. apply tab_ext. intros i Hi. rewrite rounds_of_snoc. fold s. rewrite (Nat.eqb_sym s i).
    destruct (Nat.eqb_spec i s); subst; auto. rewrite map_app. reflexivity. }
  assert (Ecl : set_nth (lg_context_lists p) s (nth s (lg_context_lists p) [] ++ [[tabF d x]]) =
                tab K (fun a => map (fun e => [tabF d (rd_x e)]) (rounds_of K a (pending B h ++ [e])))).
  { rewrite a8. rewrite nth_tab, set_nth_tab by auto. apply tab_ext. intros i Hi. rewrite rounds_of_snoc. fold s. rewrite (Nat.eqb_sym s i).
    destruct (Nat.eqb_spec i s); subst; auto. rewrite map_app. reflexivity. }
  pose proof (batches_snoc B h e HB) as HBS.
  unfold log_update_params. rewrite a2, E, Eac, Erl, Ecl, a5, a4.
  assert (Elen : length (h ++ [e]) = S (length h)) by (rewrite app_length; simpl; lia).
  destruct (Nat.eqb (S (length h) mod B) 0).
  - destruct HBS as [HB1 HB2].
    set (l := fun a => rounds_of K a (pending B h ++ [e])).
    set (m' := fun a => fitted_m opt (Fin al) d (m a) (q a) (l a)). set (q' := fun a => fitted_q opt (Fin al) d (m a) (q a) (l a)).
    assert (G : forall a, (a < K)%nat -> fit_rounds minimize d (mkMblr (Fin al) d (tabF d (m a)) (tabF d (q a))) (l a)
                = Ok (mkMblr (Fin al) d (tabF d (m' a)) (tabF d (q' a)))).
    { intros a Ha. apply fit_rounds_ok; auto. }
    pose proof (fit_loop_ok minimize d K _ (fun a => mkMblr (Fin al) d (tabF d (m' a)) (tabF d (q' a))) l G) as FL.
    unfold l in FL. rewrite <- E1 in FL. rewrite FL.
    cbn [fst snd]. split; [reflexivity|]. split.
    + constructor; cbn [lg_dim lg_n_actions lg_len_list lg_batch_size lg_n_trial lg_action_counts lg_reward_lists lg_context_lists lg_models]; auto.
      * rewrite HB2. apply repeat_is_tab.
      * rewrite HB2. apply repeat_is_tab.
      * exists m', q'. split; [reflexivity|]. split.
        { intros a j. apply Rle_trans with (q a j); auto. apply fitted_q_ge. }
        { intros a Ha. rewrite HB1, fit_batches_snoc, Hf by auto. cbn [bind]. apply G; auto. }
    + intros a Ha. cbn [lg_models]. rewrite E1, !nth_tab by auto. exists (q a), (q' a). cbn [lr_q]. repeat split; auto.
      intros j. apply fitted_q_ge.
  - destruct HBS as [HB1 HB2]. split; [reflexivity|]. cbn [fst]. split.
    + constructor; cbn [lg_dim lg_n_actions lg_len_list lg_batch_size lg_n_trial lg_action_counts lg_reward_lists lg_context_lists lg_models]; auto.
      * rewrite HB2. reflexivity.
      * rewrite HB2. reflexivity.
      * rewrite HB1. exists m, q. auto.
    + intros a Ha. cbn [lg_models]. rewrite E1, nth_tab by auto. exists (q a), (q a). cbn [lr_q]. repeat split; auto. intros; lra.
Qed.

Lemma log_post_init_inv al lam dim K L B p minimize : log_post_init (Fin al) (Fin lam) dim K L B = Ok p ->
  0 < al /\ 0 < lam /\ (1 <= dim)%Z /\ (2 <= K)%Z /\ (1 <= L <= K)%Z /\ (1 <= B)%Z /\
  log_after minimize al lam (Z.to_nat dim) (Z.to_nat K) (Z.to_nat L) (Z.to_nat B) [] p.
Proof.
  unfold log_post_init, contextual_checks, check_scalar_Z, raise_if.
  destruct (Z.ltb_spec dim 1); simpl; [discriminate|].
  destruct (Z.ltb_spec K 2); simpl; [discriminate|]. destruct (Z.ltb_spec L 1); simpl; [discriminate|].
  destruct (Z.ltb_spec K L); simpl; [discriminate|]. destruct (Z.ltb_spec B 1); simpl; [discriminate|].
  destruct (Rleb al 0) eqn:Ea; simpl; [discriminate|]. destruct (Rleb lam 0) eqn:El; simpl; [discriminate|].
  apply Rleb_false in Ea. apply Rleb_false in El.
  intros H5. injection H5 as <-. split; [lra|]. split; [lra|]. do 4 (split; [lia|]).
  assert (Hc : pending (Z.to_nat B) (@nil round) = []) by (unfold pending; apply skipn_nil).
  assert (Hb : batches (Z.to_nat B) (@nil round) = []). { unfold batches. simpl length. rewrite Nat.div_0_l by lia. reflexivity. }
  constructor; cbn [lg_dim lg_n_actions lg_len_list lg_batch_size lg_n_trial lg_action_counts lg_reward_lists lg_context_lists lg_models]; auto.
  - apply zzeros_tab.
  - rewrite Hc. apply repeat_is_tab.
  - rewrite Hc. apply repeat_is_tab.
  - rewrite Hb. exists (fun _ _ => 0), (fun _ _ => lam). split; [|split; [intros; lra|reflexivity]].
    rewrite repeat_is_tab. apply tab_ext. intros a Ha. unfold mblr_post_init. rewrite !repeat_is_tab, map_tab. cbn [nmul].
    rewrite !Rmult_1_r. unfold tabF. f_equal. apply tab_ext. intros; f_equal. lra.
Qed.

Lemma log_updates_after minimize opt al lam d K L B h : (0 < d)%nat -> (0 < B)%nat ->
  (forall Lf G x, minimize Lf G x = tabF d (opt Lf G x)) -> all_valid_rounds K h -> forall h0 p,
  log_after minimize al lam d K L B h0 p -> log_after minimize al lam d K L B (h0 ++ h) (log_updates minimize d p h).
Proof.
  intros Hd HB Hm. induction h as [|e h IH]; intros Hv h0 p Hp; simpl. rewrite app_nil_r. auto.
  replace (h0 ++ e :: h) with ((h0 ++ [e]) ++ h) by (rewrite <- app_assoc; reflexivity).
  apply IH. intros e' He'. apply Hv. right; auto. eapply log_update_after; eauto. apply Hv. left. reflexivity.
Qed.

(** Scores. *)
Definition logistic (t : R) : R := 1 / (1 + exp (- t)).
Lemma nsigmoid_Fin t : nsigmoid (Fin t) = Fin (logistic t).
Proof.
  unfold nsigmoid. rewrite nmin_Fin. cbn [nabs nopp nexp nadd]. rewrite ndiv_Fin by (apply Rgt_not_eq, exp_pos1). f_equal.
  unfold logistic. unfold Rmin, Rabs. pose proof (exp_pos t). destruct (Rle_dec t 0), (Rcase_abs t); try lra.
  - rewrite Ropp_involutive, exp_Ropp. field. split; lra.
  - assert (t = 0) by lra. subst. rewrite Ropp_0, exp_0. field.
  - rewrite exp_0. reflexivity.
Qed.
Lemma logistic_mono s t : s <= t <-> logistic s <= logistic t.
Proof.
  unfold logistic. assert (G : forall a b, a < b -> 1 / (1 + exp (- a)) < 1 / (1 + exp (- b))).
  { intros a b Hab. unfold Rdiv. rewrite !Rmult_1_l. pose proof (exp_pos (- a)). pose proof (exp_pos (- b)).
    assert (exp (- b) < exp (- a)) by (apply exp_increasing; lra). apply Rinv_lt_contravar; [apply Rmult_lt_0_compat|]; lra. }
  split; intros H.
  - destruct H as [H|E]; [|subst; lra]. specialize (G s t H). lra.
  - destruct (Rle_lt_dec s t); auto. specialize (G t s r). lra.
Qed.

Lemma predict_ok al d x m q : lr_predict_proba (mkMblr al d (tabF d m) q) [tabF d x] = Ok [Fin (logistic (dot d x m))].
Proof. unfold lr_predict_proba, mat_dot. cbn [mapM lr_m]. rewrite vdot_tab. cbn. rewrite nsigmoid_Fin. reflexivity. Qed.
Lemma concat_tab1 {A} n (f : nat -> A) : concat (tab n (fun i => [f i])) = tab n f.
Proof. unfold tab. induction (seq 0 n); simpl; auto. f_equal. auto. Qed.

Lemma best_first_mono K L (f g : nat -> R) l : (forall a b, f a <= f b <-> g a <= g b) -> best_first K L f l -> best_first K L g l.
Proof.
  intros H (H1 & H2 & H3). split; [auto|split].
  - intros i j Hij. apply H. auto.
  - intros a b Ha Hn Hb. apply H. auto.
Qed.
