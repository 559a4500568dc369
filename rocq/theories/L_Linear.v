(** * L_Linear: lemmas about the linear contextual policies. *)

From Coq Require Import Reals List ZArith Lia Lra Bool Permutation.
From Verif Require Import Num NpList M_Utils M_Slate M_Multi M_Embed M_Policy M_Linear S_Base S_Tuning S_Policy S_Linear
  L_Num L_Base L_Tuning L_Embed L_Policy.
Import ListNotations.
Open Scope R_scope.

Lemma delta_sym i j : delta i j = delta j i.
Proof. unfold delta. rewrite Nat.eqb_sym. reflexivity. Qed.
Lemma sumn_delta d f i : (i < d)%nat -> sumn d (fun j => delta i j * f j) = f i.
Proof.
  intros H. induction d; [lia|]. simpl. destruct (Nat.eq_dec i d) as [->|Hn].
  - rewrite (sumn_zero d). unfold delta. rewrite Nat.eqb_refl. lra.
    intros j Hj. unfold delta. destruct (Nat.eqb_spec d j); [lia|lra].
  - rewrite IHd by lia. unfold delta. destruct (Nat.eqb_spec i d); [lia|lra].
Qed.
Lemma dot_sym d u v : dot d u v = dot d v u.
Proof. apply sumn_ext. intros. ring. Qed.

(** Sherman-Morrison *)
Section SM.
  Variables (d : nat) (A B : nat -> nat -> R) (x : nat -> R).
  Hypothesis HAB : forall i j, (i < d)%nat -> (j < d)%nat -> sumn d (fun k => A i k * B k j) = delta i j.
  Let Bx i := sumn d (fun k => B i k * x k).
  Let xB j := sumn d (fun k => x k * B k j).
  Let s := sumn d (fun k => xB k * x k).

  Lemma sm_AB i j : 1 + s <> 0 -> (i < d)%nat -> (j < d)%nat ->
    sumn d (fun k => (A i k + x i * x k) * (B k j - Bx k * xB j / (1 + s))) = delta i j.
  Proof.
    intros HD Hi Hj.
    assert (E1 : sumn d (fun k => A i k * Bx k) = x i).
    { unfold Bx. rewrite (sumn_ext d _ (fun k => sumn d (fun l => A i k * B k l * x l))).
      2:{ intros k Hk. rewrite <- sumn_scal. apply sumn_ext. intros. ring. }
      rewrite sumn_swap. rewrite (sumn_ext d _ (fun l => delta i l * x l)). apply sumn_delta; auto.
      intros l Hl. rewrite <- HAB by auto. rewrite <- sumn_scal_r. reflexivity. }
    assert (E2 : sumn d (fun k => x k * Bx k) = s).
    { unfold s, xB, Bx. rewrite (sumn_ext d _ (fun k => sumn d (fun l => x k * B k l * x l))).
      2:{ intros k Hk. rewrite <- sumn_scal. apply sumn_ext. intros. ring. }
      rewrite sumn_swap. apply sumn_ext. intros l Hl. rewrite <- sumn_scal_r. reflexivity. }
    rewrite (sumn_ext d _ (fun k => (A i k * B k j + x i * (x k * B k j)) - (xB j / (1 + s) * (A i k * Bx k) + x i * xB j / (1 + s) * (x k * Bx k)))).
    2:{ intros k Hk. field. auto. }
    rewrite sumn_minus, !sumn_plus, !sumn_scal, E1, E2, HAB by auto. fold (xB j). field. auto.
  Qed.
End SM.

Lemma lsum_app K h1 h2 a f : lsum K (h1 ++ h2) a f = lsum K h1 a f + lsum K h2 a f.
Proof. induction h1; simpl. lra. rewrite IHh1. lra. Qed.
Lemma lsum_ext K h a f g : (forall e, f e = g e) -> lsum K h a f = lsum K h a g.
Proof. intros H. induction h; simpl; auto. rewrite IHh, H. reflexivity. Qed.
Lemma lsum_nonneg K h a f : (forall e, 0 <= f e) -> 0 <= lsum K h a f.
Proof. intros H. induction h; simpl. lra. specialize (H a0). destruct (Nat.eqb _ _); lra. Qed.
Lemma lsum_plus K h a f g : lsum K h a (fun e => f e + g e) = lsum K h a f + lsum K h a g.
Proof. induction h; simpl. lra. rewrite IHh. destruct (Nat.eqb _ _); lra. Qed.
Lemma lsum_scal K h a c f : lsum K h a (fun e => c * f e) = c * lsum K h a f.
Proof. induction h; simpl. lra. rewrite IHh. destruct (Nat.eqb _ _); lra. Qed.
Lemma sumn_lsum K h a n (f : nat -> round -> R) :
  sumn n (fun i => lsum K h a (f i)) = lsum K h a (fun e => sumn n (fun i => f i e)).
Proof.
  induction h as [|e h IH]; simpl. apply sumn_zero; auto.
  rewrite sumn_plus, IH. f_equal. destruct (Nat.eqb _ _); auto. apply sumn_zero; auto.
Qed.

Lemma gram_sym K h a i j : gram K h a i j = gram K h a j i.
Proof. unfold gram. rewrite delta_sym. f_equal. apply lsum_ext. intros. ring. Qed.

(** The Gram matrix as a bilinear form. *)
Lemma mvec_gram K h a d v i : (i < d)%nat ->
  mvec d (gram K h a) v i = v i + lsum K h a (fun e => rd_x e i * dot d (rd_x e) v).
Proof.
  intros Hi. unfold mvec, gram.
  rewrite (sumn_ext d _ (fun j => delta i j * v j + lsum K h a (fun e => rd_x e i * (rd_x e j * v j)))).
  2:{ intros j Hj. rewrite Rmult_plus_distr_r. f_equal. rewrite Rmult_comm, <- lsum_scal. apply lsum_ext. intros. ring. }
  rewrite sumn_plus, sumn_delta by auto. f_equal. rewrite sumn_lsum. apply lsum_ext. intros e. rewrite sumn_scal. reflexivity.
Qed.
Lemma bil_gram K h a d u v :
  dot d u (mvec d (gram K h a) v) = dot d u v + lsum K h a (fun e => dot d u (rd_x e) * dot d (rd_x e) v).
Proof.
  unfold dot at 1. rewrite (sumn_ext d _ (fun i => u i * v i + lsum K h a (fun e => (u i * rd_x e i) * dot d (rd_x e) v))).
  2:{ intros i Hi. rewrite mvec_gram by auto. rewrite Rmult_plus_distr_l. f_equal. rewrite <- lsum_scal. apply lsum_ext. intros. ring. }
  rewrite sumn_plus, sumn_lsum. f_equal. apply lsum_ext. intros e. rewrite sumn_scal_r. reflexivity.
Qed.

Lemma dot_self_nonneg d v : 0 <= dot d v v.
Proof. apply sumn_nonneg. intros. apply Rle_0_sqr. Qed.
Lemma dot_self_pos d v : (exists i, (i < d)%nat /\ v i <> 0) -> 0 < dot d v v.
Proof.
  intros (i & Hi & Hv). pose proof (dot_self_nonneg d v) as [H|H]; auto. exfalso. apply Hv.
  assert (E : v i * v i = 0). { apply (sumn_zero_inv d (fun i => v i * v i)); auto. intros. apply Rle_0_sqr. }
  nra.
Qed.

(** Consequences of being the inverse of a Gram matrix. *)
Section Inv.
  Variables (K d : nat) (h : list round) (a : nat) (B : nat -> nat -> R).
  Hypothesis HB : forall i j, (i < d)%nat -> (j < d)%nat -> sumn d (fun k => gram K h a i k * B k j) = delta i j.
  Hypothesis HS : symmetric d B.

  Lemma inv_two_sided : is_inverse d (gram K h a) B.
  Proof.
    intros i j Hi Hj. split; [auto|]. rewrite delta_sym, <- HB by auto. apply sumn_ext. intros k Hk.
    rewrite (HS i k), (gram_sym K h a k j) by auto. ring.
  Qed.
  Lemma gram_B v i : (i < d)%nat -> mvec d (gram K h a) (mvec d B v) i = v i.
  Proof.
    intros Hi. unfold mvec. rewrite (sumn_ext d _ (fun k => sumn d (fun l => gram K h a i k * B k l * v l))).
    2:{ intros k Hk. rewrite <- sumn_scal. apply sumn_ext. intros. ring. }
    rewrite sumn_swap. rewrite (sumn_ext d _ (fun l => delta i l * v l)). apply sumn_delta; auto.
    intros l Hl. rewrite <- HB by auto. rewrite <- sumn_scal_r. reflexivity.
  Qed.
  Lemma quad_B v : dot d v (mvec d B v) = dot d (mvec d B v) (mvec d B v) + lsum K h a (fun e => dot d (mvec d B v) (rd_x e) ^ 2).
  Proof.
    rewrite dot_sym. transitivity (dot d (mvec d B v) (mvec d (gram K h a) (mvec d B v))).
    - apply sumn_ext. intros i Hi. rewrite gram_B by auto. reflexivity.
    - rewrite bil_gram. f_equal. apply lsum_ext. intros e. rewrite (dot_sym d (rd_x e)). ring.
  Qed.
  Lemma quad_nonneg v : 0 <= dot d v (mvec d B v).
  Proof.
    rewrite quad_B. apply Rplus_le_le_0_compat. apply dot_self_nonneg. apply lsum_nonneg. intros. nra.
  Qed.
  Lemma inv_pos_def : pos_def d B.
  Proof.
    intros v (i & Hi & Hv). rewrite quad_B.
    assert (H1 : 0 < dot d (mvec d B v) (mvec d B v)).
    { pose proof (dot_self_nonneg d (mvec d B v)) as [H1|H1]; auto. exfalso. apply Hv. rewrite <- (gram_B v i) by auto.
      unfold mvec at 1. apply sumn_zero. intros j Hj. assert (E : mvec d B v j * mvec d B v j = 0).
      { apply (sumn_zero_inv d (fun j => mvec d B v j * mvec d B v j)); auto. intros. apply Rle_0_sqr. }
      assert (E2 : mvec d B v j = 0) by nra. rewrite E2. ring. }
    assert (H2 : 0 <= lsum K h a (fun e => dot d (mvec d B v) (rd_x e) ^ 2)) by (apply lsum_nonneg; intros; nra). lra.
  Qed.

  (** The ridge solution. *)
  Lemma moment_dot u : dot d u (moment K h a) = lsum K h a (fun e => rd_reward e * dot d u (rd_x e)).
  Proof.
    unfold dot at 1, moment. rewrite (sumn_ext d _ (fun i => lsum K h a (fun e => u i * (rd_reward e * rd_x e i)))).
    2:{ intros. rewrite lsum_scal. reflexivity. }
    rewrite sumn_lsum. apply lsum_ext. intros e. unfold dot. rewrite <- sumn_scal. apply sumn_ext. intros. ring.
  Qed.
  Lemma ridge_expand theta w : ridge_loss K d h a w =
    ridge_loss K d h a theta + dot d (fun i => w i - theta i) (mvec d (gram K h a) (fun i => w i - theta i))
    + 2 * (dot d (fun i => w i - theta i) (mvec d (gram K h a) theta) - dot d (fun i => w i - theta i) (moment K h a)).
  Proof.
    set (u := fun i => w i - theta i). rewrite !bil_gram, moment_dot. unfold ridge_loss.
    assert (Ew : forall z, dot d w z = dot d theta z + dot d u z).
    { intros z. unfold dot. rewrite <- sumn_plus. apply sumn_ext. intros. unfold u. ring. }
    rewrite (Ew w), (dot_sym d theta w), (dot_sym d u w), (Ew theta), (Ew u), (dot_sym d theta u).
    assert (EL : lsum K h a (fun e => (rd_reward e - dot d w (rd_x e)) ^ 2) =
      lsum K h a (fun e => (rd_reward e - dot d theta (rd_x e)) ^ 2)
      + lsum K h a (fun e => dot d u (rd_x e) * dot d (rd_x e) u)
      + 2 * (lsum K h a (fun e => dot d u (rd_x e) * dot d (rd_x e) theta) - lsum K h a (fun e => rd_reward e * dot d u (rd_x e)))).
    { transitivity (lsum K h a (fun e => (rd_reward e - dot d theta (rd_x e)) ^ 2 + (dot d u (rd_x e) * dot d (rd_x e) u
         + (2 * (dot d u (rd_x e) * dot d (rd_x e) theta) + (-2) * (rd_reward e * dot d u (rd_x e)))))).
      - apply lsum_ext. intros e. rewrite (Ew (rd_x e)), (dot_sym d (rd_x e) u), (dot_sym d (rd_x e) theta). ring.
      - rewrite !lsum_plus, !lsum_scal. ring. }
    rewrite EL. ring.
  Qed.
  Lemma ridge_min w : let theta := mvec d B (moment K h a) in
    ridge_loss K d h a w = ridge_loss K d h a theta +
      dot d (fun i => w i - theta i) (mvec d (gram K h a) (fun i => w i - theta i)).
  Proof.
    intros theta. rewrite (ridge_expand theta w).
    assert (E : dot d (fun i => w i - theta i) (mvec d (gram K h a) theta) = dot d (fun i => w i - theta i) (moment K h a)).
    { apply sumn_ext. intros i Hi. unfold theta. rewrite gram_B by auto. reflexivity. }
    rewrite E. ring.
  Qed.
End Inv.

Lemma gram_quad_pos K d h a v : (exists i, (i < d)%nat /\ v i <> 0) -> 0 < dot d v (mvec d (gram K h a) v).
Proof.
  intros H. rewrite bil_gram. apply dot_self_pos in H.
  assert (0 <= lsum K h a (fun e => dot d v (rd_x e) * dot d (rd_x e) v)).
  { apply lsum_nonneg. intros e. rewrite (dot_sym d (rd_x e)). apply Rle_0_sqr. } lra.
Qed.

Lemma ctx_tab d x : [tabF d x] = tab2F 1 d (fun _ => x).
Proof. reflexivity. Qed.
Lemma transpose_row d x : transpose [tabF d x] = tab2F d 1 (fun j _ => x j).
Proof.
  unfold transpose. unfold tabF at 2. rewrite tab_length. unfold tab2F. apply tab_ext. intros j Hj.
  simpl. unfold nth_num, tabF. rewrite nth_tab by auto. reflexivity.
Qed.
Lemma identity_tab d : np_identity d = tab2F d d delta.
Proof. reflexivity. Qed.
Lemma repeat_is_tab {A} (x : A) n : repeat x n = tab n (fun _ => x).
Proof. unfold tab. induction n; simpl; auto. f_equal. rewrite IHn. rewrite <- seq_shift, map_map. reflexivity. Qed.

Lemma np_get_tab0 {A} n (f : nat -> A) : np_get (tab (S n) f) 0%Z = Ok (f 0%nat).
Proof. apply (np_get_tab (S n) f 0). lia. Qed.

Definition sm_step (d : nat) (B : nat -> nat -> R) (x : nat -> R) (i j : nat) : R :=
  B i j - sumn d (fun k => B i k * x k) * sumn d (fun k => x k * B k j)
          / (1 + sumn d (fun l => sumn d (fun k => x k * B k l) * x l)).

Lemma woodbury_ok d B x : (0 < d)%nat ->
  1 + sumn d (fun l => sumn d (fun k => x k * B k l) * x l) <> 0 ->
  woodbury (tab2F d d B) [tabF d x] = Ok (tab2F d d (sm_step d B x)).
Proof.
  intros Hd HD. unfold woodbury. rewrite transpose_row. rewrite ctx_tab.
  rewrite matmul_tab by auto. cbn [bind]. rewrite matmul_tab by auto. cbn [bind]. rewrite matmul_tab by auto. cbn [bind].
  rewrite matmul_tab by auto. cbn [bind]. rewrite (matmul_tab 1 d 1) by auto. cbn [bind].
  unfold tab2F at 1. rewrite np_get_tab0. cbn [bind]. unfold tabF at 1. rewrite np_get_tab0. cbn [bind].
  f_equal. unfold sub_div, tab2F. rewrite combine_tab, map_tab. apply tab_ext. intros i Hi. simpl fst. simpl snd.
  unfold tabF. rewrite combine_tab, map_tab. apply tab_ext. intros j Hj. simpl fst. simpl snd.
  cbn [nadd]. rewrite ndiv_Fin by auto. unfold nsub. cbn [nopp nadd]. f_equal. unfold sm_step, Rminus. f_equal. f_equal.
  unfold Rdiv. f_equal.
  rewrite (sumn_ext d _ (fun a => sumn d (fun k => B i k * x k) * (x a * B a j))).
  - apply sumn_scal.
  - intros k Hk. simpl. ring.
Qed.

Lemma add_column_ok d K b i v : (i < K)%nat ->
  add_column (tab2F d K b) i (tabF d v) = Ok (tab2F d K (fun r c => if Nat.eqb c i then b r i + v r else b r c)).
Proof.
  intros Hi. unfold add_column, tab2F. unfold tabF at 1. rewrite !tab_length, Nat.eqb_refl. f_equal.
  unfold tabF at 2. rewrite combine_tab, map_tab. apply tab_ext. intros r Hr. simpl fst. simpl snd.
  unfold tabF. rewrite nth_tab, set_nth_tab by auto. apply tab_ext. intros c Hc. simpl nadd.
  destruct (Nat.eqb c i); reflexivity.
Qed.

(** The object after a history. *)
Record lin_after (d K L B : nat) (h : list round) (p : linp) : Prop := mkLinAfter {
  la_dim : ln_dim p = d;
  la_K : ln_n_actions p = K;
  la_L : ln_len_list p = L;
  la_B : ln_batch_size p = B;
  la_n : ln_n_trial p = length h;
  la_ac : ln_action_counts p = tabZ K (times K (map (fun e => (rd_action e, rd_reward e)) h));
  la_A : exists M, ln_A_inv p = tab3F K d d M /\ forall a, (a < K)%nat -> symmetric d (M a) /\
           forall i j, (i < d)%nat -> (j < d)%nat -> sumn d (fun k => gram K (committed B h) a i k * M a k j) = delta i j;
  la_b : ln_b p = tab2F d K (fun i a => moment K (committed B h) a i);
  la_At : exists M, ln_A_inv_temp p = tab3F K d d M /\ forall a, (a < K)%nat -> symmetric d (M a) /\
           forall i j, (i < d)%nat -> (j < d)%nat -> sumn d (fun k => gram K h a i k * M a k j) = delta i j;
  la_bt : ln_b_temp p = tab2F d K (fun i a => moment K h a i) }.

Lemma sm_step_symmetric d B x : symmetric d B -> symmetric d (sm_step d B x).
Proof.
  intros HS i j Hi Hj. unfold sm_step. rewrite (HS i j) by auto. f_equal. f_equal.
  rewrite Rmult_comm. f_equal; apply sumn_ext; intros k Hk; [rewrite (HS k j) by auto|rewrite (HS i k) by auto]; ring.
Qed.

Lemma moment_snoc K h e a i : moment K (h ++ [e]) a i =
  moment K h a i + (if Nat.eqb (slot K (rd_action e)) a then rd_reward e * rd_x e i else 0).
Proof. unfold moment. rewrite lsum_app. simpl. lra. Qed.
Lemma gram_snoc K h e a i j : gram K (h ++ [e]) a i j =
  gram K h a i j + (if Nat.eqb (slot K (rd_action e)) a then rd_x e i * rd_x e j else 0).
Proof. unfold gram. rewrite lsum_app. simpl. lra. Qed.

Lemma lin_update_after d K L B h p e : (0 < d)%nat -> (0 < B)%nat -> lin_after d K L B h p -> valid_action K (rd_action e) ->
  let u := lin_update_params p (rd_action e) (Fin (rd_reward e)) [tabF d (rd_x e)] in
  snd u = Ok tt /\ lin_after d K L B (h ++ [e]) (fst u).
Proof.
  intros Hd HB [a1 a2 a3 a4 a5 a6 (M & E1 & HM) a8 (Mt & E2 & HMt) a10] Hv. cbv zeta.
  destruct (np_index_valid K _ Hv) as [E Hs]. set (x := rd_x e). set (s := slot K (rd_action e)) in *.
  assert (HD : 1 + sumn d (fun l => sumn d (fun k => x k * Mt s k l) * x l) <> 0).
  { destruct (HMt s Hs) as [S1 S2]. pose proof (quad_nonneg K d h s (Mt s) S2 x) as Hq.
    assert (Eq : sumn d (fun l => sumn d (fun k => x k * Mt s k l) * x l) = dot d x (mvec d (Mt s) x)).
    { unfold dot, mvec. apply sumn_ext. intros l Hl. rewrite Rmult_comm. f_equal. apply sumn_ext. intros k Hk. rewrite (S1 l k) by auto. ring. }
    rewrite Eq. lra. }
  set (Mt' := fun a => if Nat.eqb a s then sm_step d (Mt s) x else Mt a).
  assert (EA : set_nth (ln_A_inv_temp p) s (tab2F d d (sm_step d (Mt s) x)) = tab3F K d d Mt').
  { rewrite E2. unfold tab3F. rewrite set_nth_tab by auto. apply tab_ext. intros a Ha. unfold Mt'. destruct (Nat.eqb a s); reflexivity. }
  assert (Eb : add_column (ln_b_temp p) s (map (nmul (Fin (rd_reward e))) (concat [tabF d x])) = Ok (tab2F d K (fun i a => moment K (h ++ [e]) a i))).
  { rewrite a10. simpl concat. rewrite app_nil_r. unfold tabF at 1. rewrite map_tab.
    match goal with |- add_column _ _ ?t = _ => change t with (tabF d (fun i => rd_reward e * x i)) end.
    rewrite add_column_ok by auto. f_equal. unfold tab2F. apply tab_ext. intros i Hi. unfold tabF. apply tab_ext. intros a Ha. f_equal.
    rewrite moment_snoc. fold s. rewrite (Nat.eqb_sym s a). destruct (Nat.eqb_spec a s); subst; unfold x; lra. }
  assert (Eac : set_nth (ln_action_counts p) s (nth s (ln_action_counts p) 0 + 1)%Z = tabZ K (times K (map (fun e => (rd_action e, rd_reward e)) (h ++ [e])))).
  { rewrite a6. unfold tabZ. rewrite nth_tab, set_nth_tab by auto. apply tab_ext. intros i Hi. rewrite map_app, times_app. simpl.
    fold s. rewrite (Nat.eqb_sym s i). destruct (Nat.eqb_spec i s); subst; lia. }
  assert (HMt' : forall a, (a < K)%nat -> symmetric d (Mt' a) /\
           forall i j, (i < d)%nat -> (j < d)%nat -> sumn d (fun k => gram K (h ++ [e]) a i k * Mt' a k j) = delta i j).
  { intros a Ha. unfold Mt'. destruct (Nat.eqb_spec a s) as [->|Hne].
    - destruct (HMt s Hs) as [S1 S2]. split. apply sm_step_symmetric; auto. intros i j Hi Hj.
      rewrite <- (sm_AB d (gram K h s) (Mt s) x S2 i j HD Hi Hj). apply sumn_ext. intros k Hk. rewrite gram_snoc. fold s. rewrite Nat.eqb_refl. reflexivity.
    - destruct (HMt a Ha) as [S1 S2]. split; auto. intros i j Hi Hj. rewrite <- S2 by auto. apply sumn_ext. intros k Hk. rewrite gram_snoc.
      fold s. destruct (Nat.eqb_spec s a); [congruence|]. rewrite Rplus_0_r. reflexivity. }
  unfold lin_update_params. rewrite a2, E. fold x.
  assert (Ew : woodbury (nth s (ln_A_inv_temp p) []) [tabF d x] = Ok (tab2F d d (sm_step d (Mt s) x))).
  { rewrite E2. unfold tab3F. rewrite nth_tab by auto. apply woodbury_ok; auto. }
  rewrite Ew, EA, Eb. split; [reflexivity|]. cbn [fst]. rewrite Eac. constructor; cbn [ln_dim ln_n_actions ln_len_list ln_batch_size ln_n_trial ln_action_counts ln_A_inv ln_b ln_A_inv_temp ln_b_temp]; auto.
  - rewrite app_length. simpl. lia.
  - rewrite a5, a4, committed_snoc by auto. destruct (Nat.eqb (S (length h) mod B) 0). exists Mt'; auto. exists M; auto.
  - rewrite a5, a4, committed_snoc by auto. destruct (Nat.eqb (S (length h) mod B) 0); auto.
  - exists Mt'; auto.
Qed.

Lemma lin_post_init_inv dim K L B p : lin_post_init dim K L B = Ok p ->
  (1 <= dim)%Z /\ (2 <= K)%Z /\ (1 <= L <= K)%Z /\ (1 <= B)%Z /\
  lin_after (Z.to_nat dim) (Z.to_nat K) (Z.to_nat L) (Z.to_nat B) [] p.
Proof.
  unfold lin_post_init, contextual_checks, check_scalar_Z, raise_if.
  destruct (Z.ltb_spec dim 1); simpl; [discriminate|].
  destruct (Z.ltb_spec K 2); simpl; [discriminate|]. destruct (Z.ltb_spec L 1); simpl; [discriminate|].
  destruct (Z.ltb_spec K L); simpl; [discriminate|]. destruct (Z.ltb_spec B 1); simpl; [discriminate|].
  intros H5. injection H5 as <-. do 4 (split; [lia|]).
  assert (G : forall a h, h = [] -> forall i j, (i < Z.to_nat dim)%nat -> (j < Z.to_nat dim)%nat -> sumn (Z.to_nat dim) (fun k => gram (Z.to_nat K) h a i k * delta k j) = delta i j).
  { intros a h -> i j Hi Hj. rewrite (sumn_ext _ _ (fun k => delta j k * delta i k)).
    2:{ intros k Hk. unfold gram. simpl. rewrite (delta_sym k j). lra. }
    rewrite sumn_delta by auto. reflexivity. }
  assert (E3 : repeat (np_identity (Z.to_nat dim)) (Z.to_nat K) = tab3F (Z.to_nat K) (Z.to_nat dim) (Z.to_nat dim) (fun _ => delta)).
  { rewrite repeat_is_tab. reflexivity. }
  assert (E4 : repeat (repeat (Fin 0) (Z.to_nat K)) (Z.to_nat dim) = tab2F (Z.to_nat dim) (Z.to_nat K) (fun _ _ => 0)).
  { rewrite !repeat_is_tab. reflexivity. }
  assert (Hc : committed (Z.to_nat B) (@nil round) = []) by (unfold committed; apply firstn_nil).
  constructor; cbn; auto.
  - apply zzeros_tab.
  - rewrite E3. exists (fun _ => delta). split; auto. intros a Ha. split. intros i j _ _. apply delta_sym. apply G; auto.
  - rewrite Hc. exact E4.
  - rewrite E3. exists (fun _ => delta). split; auto. intros a Ha. split. intros i j _ _. apply delta_sym. apply G; auto.
Qed.

Definition all_valid_rounds (K : nat) (h : list round) : Prop := forall e, In e h -> valid_action K (rd_action e).

Lemma lin_updates_after d K L B h : (0 < d)%nat -> (0 < B)%nat -> all_valid_rounds K h -> forall h0 p,
  lin_after d K L B h0 p -> lin_after d K L B (h0 ++ h) (lin_updates d p h).
Proof.
  intros Hd HB. induction h as [|e h IH]; intros Hv h0 p Hp; simpl. rewrite app_nil_r. auto.
  replace (h0 ++ e :: h) with ((h0 ++ [e]) ++ h) by (rewrite <- app_assoc; reflexivity).
  apply IH. intros e' He'. apply Hv. right; auto. apply lin_update_after; auto. apply Hv. left. reflexivity.
Qed.

(** Scores computed by the selection methods. *)
Lemma theta_ok d K p M m : (0 < d)%nat -> ln_A_inv p = tab3F K d d M -> ln_b p = tab2F d K (fun i a => m a i) ->
  forall a, (a < K)%nat -> theta_col p a = Ok (tabF d (mvec d (M a) (m a))).
Proof.
  intros Hd EA Eb a Ha. unfold theta_col. rewrite Eb. unfold tab2F at 1. unfold tabF at 1. rewrite column_tab by auto. cbn [bind].
  rewrite map_tab. rewrite EA. unfold tab3F. rewrite nth_tab by auto.
  change (tab d (fun i => [Fin (m a i)])) with (tab2F d 1 (fun i _ => m a i)). rewrite matmul_tab by auto. cbn [bind].
  unfold tab2F, tabF at 1. rewrite column_tab by lia. reflexivity.
Qed.
Lemma thetas_ok d K p M m : (0 < d)%nat -> ln_n_actions p = K -> ln_A_inv p = tab3F K d d M -> ln_b p = tab2F d K (fun i a => m a i) ->
  mapM (theta_col p) (seq 0 (ln_n_actions p)) = Ok (tab K (fun a => tabF d (mvec d (M a) (m a)))).
Proof.
  intros Hd HK EA Eb. rewrite HK. replace (seq 0 K) with (tab K (fun i => i)) by (unfold tab; apply map_id).
  apply mapM_tab. intros a Ha. apply (theta_ok d K p M m); auto.
Qed.
Lemma scores_ok d K x t : (0 < d)%nat ->
  scores [tabF d x] (tab K (fun a => tabF d (t a))) = Ok (tabF K (fun a => dot d x (t a))).
Proof.
  intros Hd. unfold scores. simpl mapM.
  rewrite (mapM_tab K (fun a => tabF d (t a)) _ (fun a => Fin (dot d x (t a)))).
  - simpl. rewrite app_nil_r. reflexivity.
  - intros a Ha. unfold tabF at 2. rewrite map_tab. change (tab d (fun i => [Fin (t a i)])) with (tab2F d 1 (fun i _ => t a i)).
    rewrite row_times_tab by auto. cbn [bind]. unfold tabF. rewrite np_get_tab0. reflexivity.
Qed.
Lemma sigmas_ok d K p M x : (0 < d)%nat -> ln_n_actions p = K -> ln_A_inv p = tab3F K d d M ->
  (forall a, (a < K)%nat -> symmetric d (M a)) ->
  (forall a, (a < K)%nat -> 0 <= dot d x (mvec d (M a) x)) ->
  mapM (sigma_col p [tabF d x]) (seq 0 (ln_n_actions p)) = Ok (tabF K (fun a => sqrt (dot d x (mvec d (M a) x)))).
Proof.
  intros Hd HK EA HS HP. rewrite HK. replace (seq 0 K) with (tab K (fun i => i)) by (unfold tab; apply map_id).
  unfold tabF at 2. apply mapM_tab. intros a Ha. unfold sigma_col. rewrite EA. unfold tab3F. rewrite nth_tab by auto.
  rewrite transpose_row, ctx_tab. rewrite (matmul_tab 1 d d) by auto. cbn [bind]. rewrite (matmul_tab 1 d 1) by auto. cbn [bind].
  unfold tab2F. rewrite np_get_tab0. cbn [bind]. unfold tabF. rewrite np_get_tab0. cbn [bind].
  assert (Eq : sumn d (fun l => sumn d (fun k => x k * M a k l) * x l) = dot d x (mvec d (M a) x)).
  { unfold dot, mvec. apply sumn_ext. intros l Hl. rewrite Rmult_comm. f_equal. apply sumn_ext. intros k Hk. rewrite (HS a Ha l k) by auto. ring. }
  rewrite Eq. rewrite nsqrt_Fin by auto. reflexivity.
Qed.
