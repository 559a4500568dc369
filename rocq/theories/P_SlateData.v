(** * P_SlateData: rankings and their propensities (C62). *)

From Coq Require Import Reals List ZArith Bool Lia Lra Sorted Permutation.
From Verif Require Import Num NpList M_Utils M_Data M_SlateData S_Base S_Data S_SlateReg S_SlateData L_Num L_Base L_Utils L_Data L_SlateEst L_SlateData.
Import ListNotations.
Open Scope R_scope.

(** The slate [s] as a function of the slot; the propensity of a round's slate and of showing [a] in slot [j], for logits [lg]. *)
Notation slots s := (fun i => nth i s 0%nat).
Definition shows_at (j a : nat) (t : list nat) : Prop := nth j t 0%nat = a.
Definition item_prob (fact : bool) (K L : nat) (w : nat -> R) (all : list (list nat)) (j a : nat) : R :=
  sum_list all (fun t => if Nat.eq_dec (nth j t 0%nat) a then ranking_prob fact K w (slots t) L else 0).

Lemma wt_tab K lg a : (a < K)%nat -> wt (tab K lg) a = exp (lg a).
Proof. intros H. unfold wt. rewrite nth_tab by exact H. reflexivity. Qed.
Lemma pl_ext fact w w' avail s : (forall a, In a avail -> w a = w' a) -> playable fact avail s -> pl fact w avail s = pl fact w' avail s.
Proof.
  revert avail. induction s as [|a s IH]; intros avail H Hp; [reflexivity|]. cbn [pl]. destruct Hp as [Ha Hp].
  rewrite H by exact Ha. rewrite (sum_list_ext avail w w') by exact H. rewrite IH; auto.
  intros b Hb. apply H. destruct fact; cbn [after] in Hb; auto. apply In_del in Hb. tauto.
Qed.
Lemma slate_playable fact K L s : slate_of fact K L s <-> length s = L /\ playable fact (seq 0 K) s.
Proof.
  rewrite playable_iff. unfold slate_of. split; intros (H1 & H2 & H3); repeat split; auto; intros a Ha; specialize (H2 a Ha); apply in_seq in H2 || apply in_seq; lia.
Qed.
Lemma pl_tab fact K L lg s k : slate_of fact K L s -> (k <= L)%nat ->
  pl fact (wt (tab K lg)) (seq 0 K) (firstn k s) = ranking_prob fact K (fun a => exp (lg a)) (slots s) k.
Proof.
  intros Hs Hk. pose proof (proj1 (slate_playable fact K L s) Hs) as [Hl Hp].
  rewrite (pl_ext _ _ (fun a => exp (lg a))).
  - apply pl_ranking. lia.
  - intros a Ha. apply in_seq in Ha. apply wt_tab. lia.
  - apply playable_firstn, Hp.
Qed.
Lemma pl_all fact K L w s : slate_of fact K L s -> pl fact w (seq 0 K) s = ranking_prob fact K w (slots s) L.
Proof. intros [Hl _]. rewrite <- (pl_ranking fact K w s L) by lia. rewrite <- Hl, firstn_all. reflexivity. Qed.

Lemma item_at_slot fact K L w all j a : enumerates all (slate_of fact K L) -> item_prob fact K L w all j a = at_slot fact w (seq 0 K) L j a.
Proof.
  intros He. unfold item_prob, at_slot. rewrite (sum_list_same all (choices fact (seq 0 K) L) (slate_of fact K L)); auto using choices_enumerate.
  apply sum_list_ext. intros t Ht. apply (proj2 (choices_enumerate fact K L)) in Ht. unfold shows.
  destruct (Nat.eq_dec (nth j t 0%nat) a) as [E|E].
  - rewrite (proj2 (Nat.eqb_eq _ _) E). symmetry. apply pl_all, Ht.
  - rewrite (proj2 (Nat.eqb_neq _ _) E). reflexivity.
Qed.
Lemma item_prob_w_ext fact K L w w' all j a : enumerates all (slate_of fact K L) -> (forall a, (a < K)%nat -> w a = w' a) ->
  item_prob fact K L w all j a = item_prob fact K L w' all j a.
Proof.
  intros He Hw. apply sum_list_ext. intros t Ht. apply (proj2 He) in Ht. destruct (Nat.eq_dec (nth j t 0%nat) a); [|reflexivity].
  rewrite <- !(pl_all fact K L) by exact Ht. apply pl_ext; [intros b Hb; apply in_seq in Hb; apply Hw; lia|]. apply (slate_playable fact K L), Ht.
Qed.

Definition clipped (clip : option R) (x : R) : R := match clip with None => x | Some c => Rmin x c end.
Lemma item_position_prob K L clip lg all j a : enumerates all (slate_of false K L) ->
  item_position K L clip (tab K lg) j (Z.of_nat a) = item_prob false K L (fun a => exp (clipped clip (lg a))) all j a.
Proof.
  intros He. unfold item_position. cbv zeta. change (Rsum (map ?g ?l)) with (sum_list l g). rewrite sum_list_filter.
  unfold item_prob. rewrite (sum_list_same all (choices false (seq 0 K) L) (slate_of false K L)); auto using choices_enumerate.
  apply sum_list_ext. intros t Ht. pose proof (proj1 (proj2 (choices_enumerate false K L) t) Ht) as Hs.
  pose proof (proj1 (slate_playable false K L t) Hs) as [Hl Hp].
  destruct (Nat.eq_dec (nth j t 0%nat) a) as [E|E].
  - rewrite E, Z.eqb_refl. rewrite <- (pl_all false K L _ t Hs). destruct clip as [c|]; cbn [clipped].
    + rewrite calc_softmax_pl by exact Hp. rewrite Rmult_1_l. apply pl_ext; auto. intros b Hb. apply in_seq in Hb.
      rewrite map_tab, nth_tab by lia. reflexivity.
    + rewrite calc_logit_pl by exact Hp. rewrite Rmult_1_l. apply pl_ext; auto. intros b Hb. apply in_seq in Hb.
      apply wt_tab. lia.
  - rewrite (proj2 (Z.eqb_neq _ _)) by lia. reflexivity.
Qed.

Lemma chunks_concat {A} n L (f : nat -> list A) : (forall i, (i < n)%nat -> length (f i) = L) -> chunks n L (concat (tab n f)) = tab n f.
Proof.
  revert f. induction n as [|n IH]; intros f Hf; [reflexivity|]. rewrite tab_S_first. cbn [concat chunks].
  rewrite firstn_app, skipn_app. rewrite (Hf 0%nat) by lia. rewrite Nat.sub_diag. cbn [firstn skipn]. rewrite app_nil_r.
  rewrite firstn_all2 by (rewrite Hf; lia). rewrite skipn_all2 by (rewrite Hf; lia). cbn [app].
  rewrite IH by (intros i Hi; apply Hf; lia). reflexivity.
Qed.
Lemma skipn_add {A} m n (l : list A) : skipn m (skipn n l) = skipn (n + m) l.
Proof. revert l. induction n as [|n IH]; intros l; [reflexivity|]. destruct l; cbn [skipn Nat.add]; [destruct m; reflexivity|apply IH]. Qed.
Lemma chunks_nth {A} L n (l : list A) : (forall i, (i < n)%nat -> nth i (chunks n L l) [] = firstn L (skipn (i * L) l)) /\ length (chunks n L l) = n.
Proof.
  revert l. induction n as [|n IH]; intros l; [split; [lia|reflexivity]|]. cbn [chunks]. split.
  - intros i Hi. destruct i as [|i]; [reflexivity|]. cbn [nth]. rewrite (proj1 (IH _)) by lia.
    rewrite skipn_add. f_equal.
  - cbn [length]. rewrite (proj2 (IH _)). reflexivity.
Qed.
Lemma concat_tab_length {A} n L (f : nat -> list A) : (forall i, (i < n)%nat -> length (f i) = L) -> length (concat (tab n f)) = (n * L)%nat.
Proof.
  revert f. induction n as [|n IH]; intros f Hf; [reflexivity|]. rewrite tab_S_first. cbn [concat].
  rewrite app_length, (Hf 0%nat), IH by (intros; try apply Hf; lia). reflexivity.
Qed.
Lemma last_tab {A} n (f : nat -> A) d : last (tab (S n) f) d = f n.
Proof. rewrite tab_S. apply last_last. Qed.

Definition logged (n : nat) (s : nat -> list nat) : list Z := concat (tab n (fun i => map Z.of_nat (s i))).

(** ** Propensities of given slates *)
Theorem C62_pscores : forall d n (lg : nat -> nat -> R) (s : nat -> list nat) (all : list (list nat)) item clip,
  (1 <= n)%nat -> (1 <= sd_L d)%nat ->
  (forall i, (i < n)%nat -> slate_of (sd_fact d) (sd_K d) (sd_L d) (s i)) ->
  enumerates all (slate_of (sd_fact d) (sd_K d) (sd_L d)) ->
  (item = true -> forall c, clip = Some c -> c <= 700) ->
  let P i k := ranking_prob (sd_fact d) (sd_K d) (fun a => exp (lg i a)) (slots (s i)) k in
  exists ps, obtain_pscore d (logged n s) (tabR2 n (sd_K d) lg) item clip = Ok ps /\
    ps_cascade ps = flat n (sd_L d) (fun i j => P i (S j)) /\
    ps_joint ps = flat n (sd_L d) (fun i _ => P i (sd_L d)) /\
    ps_item ps = (if item then Some (flat n (sd_L d) (fun i j =>
                    item_prob (sd_fact d) (sd_K d) (sd_L d)
                      (fun a => exp (if (Nat.eqb j 0 || sd_fact d)%bool then lg i a else clipped clip (lg i a))) all j (nth j (s i) 0%nat)))
                  else None).
Proof.
  intros d n lg s all item clip Hn HL Hs He Hclip P. set (K := sd_K d) in *. set (L := sd_L d) in *. set (fact := sd_fact d) in *.
  assert (HsL : forall i, (i < n)%nat -> length (map Z.of_nat (s i)) = L) by (intros i Hi; rewrite map_length; apply (Hs i Hi)).
  unfold obtain_pscore. fold K L fact. unfold tabR2. rewrite tab_length.
  unfold logged. rewrite (concat_tab_length n L) by exact HsL. rewrite Nat.eqb_refl.
  rewrite nth_tab by lia. rewrite tab_length, Nat.eqb_refl. cbn [negb orb raise_if bind].
  assert (Ec : match clip with Some c => if item then check_scalar (Fin c) None (Some (Fin 700)) else Ok tt | None => Ok tt end = Ok tt).
  { destruct clip as [c|]; [|reflexivity]. destruct item; [|reflexivity]. specialize (Hclip eq_refl c eq_refl).
    unfold check_scalar. cbn. destruct (Rltb 700 c) eqn:E; [apply Rltb_true in E; lra|reflexivity]. }
  rewrite Ec. cbn [bind]. rewrite chunks_concat by exact HsL. rewrite combine_tab.
  rewrite (mapM_tab n _ _ (fun i => tab L (slot_out fact (wt (tab K (lg i))) (seq 0 K) (item_position K L clip (tab K (lg i))) (s i)))).
  2:{ intros i Hi. cbn [fst snd]. destruct (proj1 (slate_playable fact K L (s i)) (Hs i Hi)) as [Hl Hp].
      rewrite round_pscores_ok by exact Hp. rewrite Hl. reflexivity. }
  cbn [bind]. eexists. split; [reflexivity|]. unfold pscores_of. cbn [ps_cascade ps_joint ps_item]. rewrite !map_tab.
  assert (HP : forall i k, (i < n)%nat -> (k <= L)%nat -> pl fact (wt (tab K (lg i))) (seq 0 K) (firstn k (s i)) = P i k).
  { intros i k Hi Hk. apply (pl_tab fact K L); auto. }
  unfold flat. split; [|split].
  - f_equal. apply tab_ext. intros i Hi. rewrite map_tab. apply tab_ext. intros j Hj. cbn [slot_out fst]. apply HP; lia.
  - f_equal. apply tab_ext. intros i Hi. unfold joint_of. rewrite map_tab.
    destruct L as [|m] eqn:EL; [lia|]. rewrite last_tab. cbn [slot_out fst]. rewrite HP by lia.
    rewrite <- repeat_is_tab. reflexivity.
  - destruct item; [|reflexivity]. f_equal. f_equal. apply tab_ext. intros i Hi. rewrite map_tab. apply tab_ext. intros j Hj.
    cbn [slot_out snd]. destruct (proj1 (slate_playable fact K L (s i)) (Hs i Hi)) as [Hl Hp].
    assert (Ha : In (nth j (s i) 0%nat) (seq 0 K)) by (apply in_seq; destruct (Hs i Hi) as (_ & HK & _); specialize (HK (nth j (s i) 0%nat)); split; [lia|apply HK, nth_In; lia]).
    assert (Hw : forall a, 0 < exp (lg i a)) by (intros; apply exp_pos).
    assert (Esum : sum_list (seq 0 K) (wt (tab K (lg i))) = sum_list (seq 0 K) (fun a => exp (lg i a))).
    { apply sum_list_ext. intros a Hb. apply in_seq in Hb. apply wt_tab; lia. }
    assert (Ew : wt (tab K (lg i)) (nth j (s i) 0%nat) = exp (lg i (nth j (s i) 0%nat))) by (apply in_seq in Ha; apply wt_tab; lia).
    destruct (Nat.eqb_spec j 0) as [E0|E0]; cbn [orb].
    + subst j. rewrite item_at_slot by exact He. destruct L as [|m] eqn:EL; [lia|]. rewrite at_slot_0; auto using seq_NoDup.
      * destruct (s i) as [|a r] eqn:Es; [discriminate|]. cbn [firstn pl nth] in *. rewrite Ew, Esum. ring.
      * destruct fact eqn:Ef; cbn [enough]; [intros E; rewrite E in Ha; inversion Ha|].
        destruct (Hs i Hi) as (Hl' & HK & Hnd). specialize (Hnd eq_refl). rewrite seq_length.
        rewrite <- Hl', <- (seq_length K 0). apply NoDup_incl_length; [exact Hnd|]. intros a Ha'. apply in_seq. specialize (HK a Ha'). lia.
    + destruct fact eqn:Ef.
      * rewrite item_at_slot by exact He. rewrite at_slot_fact; auto using seq_NoDup. rewrite Ew, Esum. reflexivity.
      * apply item_position_prob, He.
Qed.

(** The enumeration always exists. *)
Theorem C62_slates_listed : forall fact K L, exists all, enumerates all (slate_of fact K L).
Proof. intros fact K L. exists (choices fact (seq 0 K) L). apply choices_enumerate. Qed.

Lemma slate_fits fact K L s : slate_of fact K L s -> enough fact (seq 0 K) L \/ L = 0%nat.
Proof.
  intros (Hl & HK & Hnd). destruct fact; cbn [enough].
  - destruct s as [|a s]; [right; simpl in Hl; lia|]. left. specialize (HK a (or_introl eq_refl)). destruct K; [lia|discriminate].
  - left. rewrite seq_length. rewrite <- Hl, <- (seq_length K 0). apply NoDup_incl_length; [apply Hnd; reflexivity|].
    intros a Ha. apply in_seq. specialize (HK a Ha). lia.
Qed.

(** The joint propensities of all slates add up to one; the cascade propensity of a prefix is the probability of all slates that
    start with it; it is positive, at most one, and does not increase along the slate. *)
Theorem C62_distribution : forall fact K L (w : nat -> R) (all : list (list nat)) (s : list nat), (forall a, 0 < w a) -> (1 <= L)%nat ->
  enumerates all (slate_of fact K L) -> slate_of fact K L s ->
  sum_list all (fun t => ranking_prob fact K w (slots t) L) = 1 /\
  (forall k, (k <= L)%nat ->
     ranking_prob fact K w (slots s) k =
     sum_list all (fun t => if list_eq_dec Nat.eq_dec (firstn k t) (firstn k s) then ranking_prob fact K w (slots t) L else 0)) /\
  (forall k, (k < L)%nat -> 0 < ranking_prob fact K w (slots s) (S k) <= ranking_prob fact K w (slots s) k) /\
  ranking_prob fact K w (slots s) 0 = 1.
Proof.
  intros fact K L w all s Hw HL He Hs.
  destruct (slate_fits _ _ _ _ Hs) as [Hen|E]; [|lia].
  pose proof (proj1 (slate_playable fact K L s) Hs) as [Hl Hp].
  assert (Hall : forall f, sum_list all f = sum_list (choices fact (seq 0 K) L) f) by (intros f; apply (sum_list_same _ _ (slate_of fact K L)); auto using choices_enumerate).
  assert (Hin : forall t, In t (choices fact (seq 0 K) L) -> ranking_prob fact K w (slots t) L = pl fact w (seq 0 K) t).
  { intros t Ht. symmetry. apply pl_all, (proj2 (choices_enumerate fact K L)), Ht. }
  split; [|split; [|split]].
  - rewrite Hall, <- (pl_total fact w (seq 0 K) L Hw (seq_NoDup K 0) Hen). apply sum_list_ext, Hin.
  - intros k Hk. rewrite Hall. rewrite <- (pl_ranking fact K w s k) by lia.
    rewrite <- (pl_completions fact w (seq 0 K) L (firstn k s)); auto using seq_NoDup, playable_firstn; [|rewrite firstn_length; lia].
    apply sum_list_ext. intros t Ht. rewrite firstn_length, Nat.min_l by lia. rewrite Hin by exact Ht. reflexivity.
  - intros k Hk. rewrite <- !(pl_ranking fact K w s) by lia.
    assert (Pk : 0 < pl fact w (seq 0 K) (firstn k s)) by (apply pl_pos; auto using playable_firstn).
    assert (Pk' : 0 < pl fact w (seq 0 K) (firstn (S k) s)) by (apply pl_pos; auto using playable_firstn).
    split; [exact Pk'|]. rewrite (firstn_snoc s k 0%nat) by lia. rewrite pl_snoc.
    assert (G : forall av r, playable fact av (r ++ [nth k s 0%nat]) -> In (nth k s 0%nat) (left_after fact av r)).
    { intros av r. revert av. induction r as [|b r IH]; intros av Hr; [exact (proj1 Hr)|]. unfold left_after. cbn [fold_left]. apply IH. exact (proj2 Hr). }
    assert (Hk' : In (nth k s 0%nat) (left_after fact (seq 0 K) (firstn k s))) by (apply G; rewrite <- firstn_snoc by lia; apply playable_firstn, Hp).
    pose proof (next_le_1 w _ _ Hw Hk'). nra.
  - reflexivity.
Qed.

(** The position-wise propensities of one slot add up to one over the actions. *)
Theorem C62_slot_distribution : forall (fact : bool) K L (w : nat -> R) all j, (forall a, 0 < w a) -> (j < L)%nat ->
  (if fact then (1 <= K)%nat else (L <= K)%nat) -> enumerates all (slate_of fact K L) ->
  sumn K (item_prob fact K L w all j) = 1.
Proof.
  intros fact K L w all j Hw Hj Hfit He. rewrite <- sum_list_seq. unfold item_prob. rewrite sum_list_swap.
  assert (Hen : enough fact (seq 0 K) L) by (destruct fact; cbn [enough]; [destruct K; [lia|discriminate]|rewrite seq_length; exact Hfit]).
  rewrite <- (pl_total fact w (seq 0 K) L Hw (seq_NoDup K 0) Hen).
  rewrite (sum_list_same all (choices fact (seq 0 K) L) (slate_of fact K L)); auto using choices_enumerate.
  apply sum_list_ext. intros t Ht. apply (proj2 (choices_enumerate fact K L)) in Ht. rewrite (pl_all fact K L _ _ Ht).
  transitivity (sum_list (seq 0 K) (fun b => if Nat.eqb b (nth j t 0%nat) then ranking_prob fact K w (slots t) L else 0)).
  - apply sum_list_ext. intros a _. destruct (Nat.eq_dec (nth j t 0%nat) a) as [E|E].
    + rewrite E, Nat.eqb_refl. reflexivity.
    + rewrite (proj2 (Nat.eqb_neq _ _)) by congruence. reflexivity.
  - apply (sum_list_single (seq 0 K) (nth j t 0%nat) (fun _ => ranking_prob fact K w (slots t) L)); [apply seq_NoDup|].
    destruct Ht as (Hl & HK & _). apply in_seq. split; [lia|]. apply HK, nth_In. lia.
Qed.

(** With equal weights every action is equally likely in every slot. *)
Theorem C62_uniform_slot : forall (fact : bool) K L c all j a, 0 < c -> (j < L)%nat -> (fact = false -> (L <= K)%nat) -> (a < K)%nat ->
  enumerates all (slate_of fact K L) -> item_prob fact K L (fun _ => c) all j a = 1 / INR K.
Proof.
  intros fact K L c all j a Hc Hj Hfit Ha He. rewrite item_at_slot by exact He. destruct fact.
  - rewrite at_slot_fact; auto using seq_NoDup; [|apply in_seq; lia]. rewrite sum_list_const, seq_length.
    assert (0 < INR K) by (apply lt_0_INR; lia). field. lra.
  - specialize (Hfit eq_refl). rewrite at_slot_uniform; auto using seq_NoDup; rewrite ?seq_length; try lia; [reflexivity|apply in_seq; lia].
Qed.

(** Errors: wrong shapes, unknown actions, and repeated actions of a policy that is not factorizable. *)
Theorem C62_rejects : forall d action logit item clip,
  (length action <> (length logit * sd_L d)%nat \/ length (nth 0 logit []) <> sd_K d -> obtain_pscore d action logit item clip = Err ValueError) /\
  (length action = (length logit * sd_L d)%nat -> length (nth 0 logit []) = sd_K d -> (forall c, item = true -> clip = Some c -> c <= 700) ->
   (exists i j, (i < length logit)%nat /\ (j < sd_L d)%nat /\
      let a k := nth (i * sd_L d + k) action 0%Z in
      (~ (0 <= a j < Z.of_nat (sd_K d))%Z \/ (sd_fact d = false /\ exists k, (k < j)%nat /\ a k = a j))) ->
   obtain_pscore d action logit item clip = Err IndexError) /\
  (forall c, length action = (length logit * sd_L d)%nat -> length (nth 0 logit []) = sd_K d -> clip = Some c -> 700 < c ->
     obtain_pscore d action logit true clip = Err ValueError).
Proof.
  intros d action logit item clip. unfold obtain_pscore. split; [|split].
  - intros [H|H]; [rewrite (proj2 (Nat.eqb_neq _ _) H); reflexivity|]. rewrite (proj2 (Nat.eqb_neq _ _) H). cbn [negb]. rewrite orb_true_r. reflexivity.
  - intros H1 H2 Hc (i & j & Hi & Hj & H). rewrite (proj2 (Nat.eqb_eq _ _) H1), (proj2 (Nat.eqb_eq _ _) H2). cbn [negb orb raise_if bind].
    assert (Ec : match clip with Some c => if item then check_scalar (Fin c) None (Some (Fin 700)) else Ok tt | None => Ok tt end = Ok tt).
    { destruct clip as [c|]; [|reflexivity]. destruct item; [|reflexivity]. specialize (Hc c eq_refl eq_refl).
      unfold check_scalar. cbn. destruct (Rltb 700 c) eqn:E; [apply Rltb_true in E; lra|reflexivity]. }
    rewrite Ec. cbn [bind].
    pose proof (chunks_nth (A := Z) (sd_L d)) as Hch.
    rewrite (mapM_Err_some _ _ IndexError); [reflexivity| |].
    + intros x _. generalize (sd_fact d) (item_position (sd_K d) (sd_L d) clip (fst x)) 0%nat (seq 0 (sd_K d)) 1. clear. intros fact it pos av p.
      revert pos av p. induction (snd x) as [|a l IH]; intros pos av p; [right; eexists; reflexivity|]. cbn [round_pscores].
      assert (W : where_first av a = Err IndexError \/ exists k, where_first av a = Ok k).
      { clear. induction av as [|b av IHa]; [left; reflexivity|]. cbn [where_first]. destruct (Z.eqb (Z.of_nat b) a); [right; eexists; reflexivity|].
        destruct IHa as [->|(k & ->)]; [left; reflexivity|right; eexists; reflexivity]. }
      destruct W as [->|(k & ->)]; [left; reflexivity|]. cbn [bind].
      match goal with |- context [round_pscores ?a ?b ?c ?d ?e ?f l] => destruct (IH d e f) as [->|(y & ->)] end; [left; reflexivity|right; eexists; reflexivity].
    + exists (nth i (combine logit (chunks (length logit) (sd_L d) action)) ([], [])). split.
      * apply nth_In. rewrite combine_length, (proj2 (Hch _ _)). lia.
      * rewrite combine_nth by (rewrite (proj2 (Hch _ _)); reflexivity). cbn [fst snd]. rewrite (proj1 (Hch _ _)) by exact Hi.
        assert (Hlen : length (firstn (sd_L d) (skipn (i * sd_L d) action)) = sd_L d) by (rewrite firstn_length, skipn_length, H1; nia).
        assert (Hnth : forall k, (k < sd_L d)%nat -> nth k (firstn (sd_L d) (skipn (i * sd_L d) action)) 0%Z = nth (i * sd_L d + k) action 0%Z).
        { intros k Hk. clear -Hk. revert action. generalize (i * sd_L d)%nat. intros m action.
          assert (G : forall (l : list Z) n k, (k < n)%nat -> nth k (firstn n l) 0%Z = nth k l 0%Z).
          { induction l as [|x l IH]; intros n k' Hk'; destruct n; try lia; [reflexivity|]. destruct k'; cbn [firstn nth]; [reflexivity|]. apply IH. lia. }
          rewrite G by exact Hk. clear. revert action. induction m as [|m IH]; intros action; [reflexivity|]. destruct action; cbn [skipn]; [destruct k; reflexivity|]. apply IH. }
        apply (round_pscores_bad _ _ _ (sd_K d)). exists j. split; [rewrite Hlen; exact Hj|]. split; [intros b Hb; apply in_seq in Hb; lia|].
        rewrite Hnth by exact Hj. cbv zeta in H. destruct H as [H|(Hf & k & Hk & E)].
        -- left. intros b Hb E. apply H. lia.
        -- right. split; auto. exists k. split; auto. rewrite Hnth by lia. exact E.
  - intros c H1 H2 -> Hc. rewrite (proj2 (Nat.eqb_eq _ _) H1), (proj2 (Nat.eqb_eq _ _) H2). cbn [negb orb raise_if bind].
    unfold check_scalar. cbn. destruct (Rltb 700 c) eqn:E; [reflexivity|apply Rltb_false in E; lra].
Qed.

(** ** Sampled slates *)
(** The interval of uniform numbers for which slot [j] shows [t j] after t(0), ..., t(j-1): its length is the probability. *)
Definition draws_slot (fact : bool) (K : nat) (w : nat -> R) (t : nat -> nat) (j : nat) (u : R) : Prop :=
  let lo := weight_below fact w t j (t j) / weight_below fact w t j K in
  lo <= u < lo + slot_prob fact K w t j.

Theorem C62_sampling : forall d uniform n (lg : nat -> nat -> R) (us : nat -> nat -> R) (all : list (list nat)) item clip,
  (1 <= sd_L d)%nat -> (if sd_fact d then (1 <= sd_K d)%nat else (sd_L d <= sd_K d)%nat) ->
  (forall i j, (i < n)%nat -> (j < sd_L d)%nat -> 0 <= us i j < 1) ->
  enumerates all (slate_of (sd_fact d) (sd_K d) (sd_L d)) ->
  (item = true -> forall c, clip = Some c -> c <= 700) ->
  exists s ps, sample_slates d uniform (tabR2 n (sd_K d) lg) item clip (tabR2 n (sd_L d) us) = Ok (logged n s, ps) /\
    (let P i k := ranking_prob (sd_fact d) (sd_K d) (fun a => exp (lg i a)) (slots (s i)) k in
     (forall i, (i < n)%nat -> slate_of (sd_fact d) (sd_K d) (sd_L d) (s i)) /\
     ps_cascade ps = flat n (sd_L d) (fun i j => P i (S j)) /\
     ps_joint ps = flat n (sd_L d) (fun i _ => P i (sd_L d)) /\
     ps_item ps = (if item then Some (flat n (sd_L d) (fun i j =>
                     if uniform then 1 / INR (sd_K d)
                     else item_prob (sd_fact d) (sd_K d) (sd_L d)
                            (fun a => exp (if (Nat.eqb j 0 || sd_fact d)%bool then lg i a else clipped clip (lg i a))) all j (nth j (s i) 0%nat)))
                   else None)) /\
    (forall i t, (i < n)%nat -> slate_of (sd_fact d) (sd_K d) (sd_L d) t ->
       (s i = t <-> forall j, (j < sd_L d)%nat -> draws_slot (sd_fact d) (sd_K d) (fun a => exp (lg i a)) (slots t) j (us i j))).
Proof.
  intros d uniform n lg us all item clip HL Hfit Hus He Hclip. set (K := sd_K d) in *. set (L := sd_L d) in *. set (fact := sd_fact d) in *.
  assert (Hen : enough fact (seq 0 K) L) by (destruct fact; cbn [enough]; [destruct K; [lia|discriminate]|rewrite seq_length; exact Hfit]).
  assert (Ec : match clip with Some c => if item then check_scalar (Fin c) None (Some (Fin 700)) else Ok tt | None => Ok tt end = Ok tt).
  { destruct clip as [c|]; [|reflexivity]. destruct item; [|reflexivity]. specialize (Hclip eq_refl c eq_refl).
    unfold check_scalar. cbn. destruct (Rltb 700 c) eqn:E; [apply Rltb_true in E; lra|reflexivity]. }
  assert (Hr : forall i, exists s, (i < n)%nat -> length s = L /\ playable fact (seq 0 K) s /\
     sample_round fact uniform K (tab K (lg i)) (item_position K L clip (tab K (lg i))) 0 (seq 0 K) 1 (tab L (us i)) =
       tab L (slot_sampled fact uniform K (wt (tab K (lg i))) (seq 0 K) (item_position K L clip (tab K (lg i))) s) /\
     (forall t, length t = L -> playable fact (seq 0 K) t ->
        (s = t <-> forall j, (j < L)%nat -> in_slot fact (wt (tab K (lg i))) (seq 0 K) t j (nth j (tab L (us i)) 0)))).
  { intros i. destruct (Nat.lt_ge_cases i n) as [Hi|Hi].
    - destruct (sample_round_from fact uniform K (tab K (lg i)) (item_position K L clip (tab K (lg i))) (seq 0 K) [] (tab L (us i)))
        as (s & H1 & H2 & H3 & H4); auto using sorted_seq, seq_NoDup.
      { intros u Hu. apply In_tab in Hu as (j & Hj & <-). auto. }
      { rewrite tab_length. exact Hen. }
      rewrite tab_length in H1, H3, H4. exists s. intros _. split; auto. 
    - exists []. intros; lia. }
  assert (Hch : exists s : nat -> list nat, forall i, (i < n)%nat -> length (s i) = L /\ playable fact (seq 0 K) (s i) /\
     sample_round fact uniform K (tab K (lg i)) (item_position K L clip (tab K (lg i))) 0 (seq 0 K) 1 (tab L (us i)) =
       tab L (slot_sampled fact uniform K (wt (tab K (lg i))) (seq 0 K) (item_position K L clip (tab K (lg i))) (s i)) /\
     (forall t, length t = L -> playable fact (seq 0 K) t ->
        (s i = t <-> forall j, (j < L)%nat -> in_slot fact (wt (tab K (lg i))) (seq 0 K) t j (nth j (tab L (us i)) 0)))).
  { exists (fun i => map fst (sample_round fact uniform K (tab K (lg i)) (item_position K L clip (tab K (lg i))) 0 (seq 0 K) 1 (tab L (us i)))).
    intros i Hi. destruct (Hr i) as (s & Hs). destruct (Hs Hi) as (H1 & H2 & H3 & H4).
    assert (E : map fst (sample_round fact uniform K (tab K (lg i)) (item_position K L clip (tab K (lg i))) 0 (seq 0 K) 1 (tab L (us i))) = s).
    { rewrite H3, map_tab. cbn [slot_sampled fst]. rewrite <- H1. symmetry. apply tab_eta. }
    rewrite E. auto. }
  destruct Hch as (s & Hs). exists s.
  assert (Hslate : forall i, (i < n)%nat -> slate_of fact K L (s i)) by (intros i Hi; apply slate_playable; destruct (Hs i Hi); tauto).
  unfold sample_slates. fold K L fact. rewrite Ec. cbn [bind]. unfold tabR2. rewrite combine_tab, map_tab.
  rewrite (tab_ext n _ (fun i => tab L (slot_sampled fact uniform K (wt (tab K (lg i))) (seq 0 K) (item_position K L clip (tab K (lg i))) (s i)))).
  2:{ intros i Hi. cbn [fst snd]. destruct (Hs i Hi) as (_ & _ & E & _). exact E. }
  eexists. split.
  - f_equal. f_equal. unfold logged. f_equal. rewrite map_tab. apply tab_ext. intros i Hi. rewrite map_tab. cbn [slot_sampled fst].
    destruct (Hs i Hi) as (El & _). rewrite <- El. rewrite <- (map_tab _ (fun j => nth j (s i) 0%nat) Z.of_nat). f_equal. symmetry. apply tab_eta.
  - assert (HP : forall i k, (i < n)%nat -> (k <= L)%nat -> pl fact (wt (tab K (lg i))) (seq 0 K) (firstn k (s i)) = ranking_prob fact K (fun a => exp (lg i a)) (slots (s i)) k).
    { intros i k Hi Hk. apply (pl_tab fact K L); auto. }
    assert (Hw : forall i a, 0 < exp (lg i a)) by (intros; apply exp_pos).
    assert (HwK : forall i a, (a < K)%nat -> wt (tab K (lg i)) a = exp (lg i a)) by (intros; apply wt_tab; assumption).
    split.
    + cbv zeta. split; [exact Hslate|]. unfold pscores_of, flat. cbn [ps_cascade ps_joint ps_item]. rewrite !map_tab. split; [|split].
      * f_equal. apply tab_ext. intros i Hi. rewrite !map_tab. apply tab_ext. intros j Hj. cbn [slot_sampled fst snd]. apply HP; lia.
      * f_equal. apply tab_ext. intros i Hi. unfold joint_of. rewrite !map_tab.
        destruct L as [|m] eqn:EL; [lia|]. rewrite last_tab. cbn [slot_sampled fst snd]. rewrite HP by lia. rewrite <- repeat_is_tab. reflexivity.
      * destruct item; [|reflexivity]. f_equal. f_equal. apply tab_ext. intros i Hi. rewrite !map_tab. apply tab_ext. intros j Hj.
        cbn [slot_sampled snd]. destruct uniform; [reflexivity|].
        assert (Ha : In (nth j (s i) 0%nat) (seq 0 K)) by (apply in_seq; destruct (Hslate i Hi) as (El & HK & _); split; [lia|apply HK, nth_In; lia]).
        assert (Esum : sum_list (seq 0 K) (wt (tab K (lg i))) = sum_list (seq 0 K) (fun a => exp (lg i a))).
        { apply sum_list_ext. intros a Hb. apply in_seq in Hb. apply HwK; lia. }
        assert (Ew : wt (tab K (lg i)) (nth j (s i) 0%nat) = exp (lg i (nth j (s i) 0%nat))) by (apply in_seq in Ha; apply HwK; lia).
        destruct fact eqn:Ef.
        -- rewrite orb_true_r. rewrite item_at_slot by exact He. rewrite at_slot_fact; auto using seq_NoDup. rewrite Ew, Esum. reflexivity.
        -- rewrite orb_false_r. destruct (Nat.eqb_spec j 0) as [E0|E0].
           ++ subst j. rewrite item_at_slot by exact He. destruct L as [|m] eqn:EL; [lia|]. rewrite at_slot_0; auto using seq_NoDup.
              destruct (Hslate i Hi) as (El & _). destruct (s i) as [|a r] eqn:Es; [discriminate|]. cbn [firstn pl nth] in *. rewrite Ew, Esum. ring.
           ++ apply item_position_prob, He.
    + intros i t Hi Ht. destruct (Hs i Hi) as (_ & _ & _ & Hd). destruct (proj1 (slate_playable fact K L t) Ht) as [El Hp].
      rewrite (Hd t El Hp).
      assert (Q : forall j, (j < L)%nat -> (in_slot fact (wt (tab K (lg i))) (seq 0 K) t j (nth j (tab L (us i)) 0) <-> draws_slot fact K (fun a => exp (lg i a)) (slots t) j (us i j))).
      { intros j Hj. rewrite nth_tab by exact Hj. unfold in_slot, draws_slot, slot_prob. cbv zeta.
        assert (Hjk : (nth j t 0 < K)%nat) by (destruct Ht as (_ & HK & _); apply HK, nth_In; lia).
        rewrite left_after_total by lia. rewrite below_weight by (auto; lia).
        assert (Eext : forall m, (m <= K)%nat -> weight_below fact (wt (tab K (lg i))) (slots t) j m = weight_below fact (fun a => exp (lg i a)) (slots t) j m).
        { intros m Hm. unfold weight_below. apply sumn_ext. intros b Hb. rewrite HwK by lia. reflexivity. }
        rewrite !Eext by lia. rewrite HwK by exact Hjk. unfold Rdiv. rewrite Rmult_plus_distr_r. reflexivity. }
      split; intros H j Hj; apply Q; auto.
Qed.

(** ** The code is a sequential choice without replacement, not a product of marginals *)
Example C62_example :
  let d := mkSd 3 2 1 true Independent [1; 1] [1; 1] [[0; 0]; [0; 0]] false in
  let lg := fun _ a => match a with 1%nat => ln 2 | _ => 0 end in
  let s := fun i => match i with O => [1; 0]%nat | _ => [2; 1]%nat end in
  (forall i, (i < 2)%nat -> slate_of (sd_fact d) (sd_K d) (sd_L d) (s i)) /\
  ranking_prob false 3 (fun a => exp (lg 0%nat a)) (slots (s 0%nat)) 1 = 1 / 2 /\
  ranking_prob false 3 (fun a => exp (lg 0%nat a)) (slots (s 0%nat)) 2 = 1 / 4 /\
  ranking_prob false 3 (fun a => exp (lg 0%nat a)) (slots (s 1%nat)) 2 = 1 / 6.
Proof.
  cbv zeta. assert (E2 : exp (ln 2) = 2) by (apply exp_ln; lra). assert (E0 : exp 0 = 1) by apply exp_0.
  split; [|split; [|split]].
  - intros i Hi. cbn [sd_fact sd_K sd_L]. destruct i as [|[|i]]; [| |lia]; (split; [reflexivity|split; [intros a Ha; simpl in Ha; intuition lia|intros _; repeat constructor; simpl; intuition lia]]).
  - cbv [ranking_prob slot_prob weight_below may_show prodn sumn nth forallb seq Nat.eqb negb andb orb]. rewrite E2, E0. lra.
  - cbv [ranking_prob slot_prob weight_below may_show prodn sumn nth forallb seq Nat.eqb negb andb orb]. rewrite E2, E0. lra.
  - cbv [ranking_prob slot_prob weight_below may_show prodn sumn nth forallb seq Nat.eqb negb andb orb]. rewrite E2, E0. lra.
Qed.

(** Clipping: with logits above the clip value, the position-wise propensities of later slots are not those of the policy. *)
Theorem C62_clip_counterexample :
  let d := mkSd 3 2 1 true Independent [1; 1] [1; 1] [[0; 0]; [0; 0]] false in
  let lg := fun _ a => match a with O => ln 4 | _ => 0 end in
  exists p q,
    obtain_pscore d (logged 1 (fun _ => [1; 0]%nat)) (tabR2 1 3 lg) true None = Ok p /\
    obtain_pscore d (logged 1 (fun _ => [1; 0]%nat)) (tabR2 1 3 lg) true (Some 0) = Ok q /\
    ps_joint p = ps_joint q /\
    match ps_item p with Some l => nth 1 l 0 = 4 / 15 | None => False end /\
    match ps_item q with Some l => nth 1 l 0 = 1 / 3 | None => False end.
Proof.
  intros d lg.
  assert (Hs : forall i, (i < 1)%nat -> slate_of (sd_fact d) (sd_K d) (sd_L d) ((fun _ => [1; 0]%nat) i)).
  { intros i _. split; [reflexivity|split; [intros a Ha; simpl in *; intuition lia|intros _; repeat constructor; simpl; intuition lia]]. }
  pose proof (choices_enumerate false 3 2) as He.
  destruct (C62_pscores d 1 lg (fun _ => [1; 0]%nat) _ true None ltac:(lia) ltac:(simpl; lia) Hs He) as (p & E & _ & J & I); [discriminate|].
  destruct (C62_pscores d 1 lg (fun _ => [1; 0]%nat) _ true (Some 0) ltac:(lia) ltac:(simpl; lia) Hs He) as (q & E' & _ & J' & I').
  { intros _ c Hc. injection Hc as <-. lra. }
  exists p, q. split; [exact E|]. split; [exact E'|]. split; [rewrite J, J'; reflexivity|].
  assert (E4 : exp (ln 4) = 4) by (apply exp_ln; lra). assert (E0 : exp 0 = 1) by apply exp_0.
  assert (G : forall w : nat -> R, item_prob false 3 2 w (choices false (seq 0 3) 2) 1 0 = w 1%nat / (w 0%nat + w 1%nat + w 2%nat) * (w 0%nat / (w 0%nat + w 2%nat)) + w 2%nat / (w 0%nat + w 1%nat + w 2%nat) * (w 0%nat / (w 0%nat + w 1%nat))).
  { intros w. rewrite item_at_slot by exact He. rewrite at_slot_S. cbn. unfold sum_list, at_slot, shows. cbn. rewrite ?Rmult_0_r, ?Rmult_1_r, ?Rplus_0_l, ?Rplus_0_r, Rplus_assoc. ring. }
  rewrite I, I'. unfold flat. cbn [tab map seq concat app nth sd_fact sd_K sd_L d Nat.eqb orb sd_L]. rewrite !G.
  unfold lg. cbn [clipped]. rewrite (Rmin_right (ln 4) 0) by (rewrite <- ln_1; left; apply ln_increasing; lra).
  rewrite (Rmin_left 0 0) by lra. rewrite E4, E0. split; lra.
Qed.

Print Assumptions C62_pscores.
Print Assumptions C62_slates_listed.
Print Assumptions C62_distribution.
Print Assumptions C62_slot_distribution.
Print Assumptions C62_uniform_slot.
Print Assumptions C62_rejects.
Print Assumptions C62_sampling.
Print Assumptions C62_clip_counterexample.
