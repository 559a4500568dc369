(** * L_Policy: lemmas about the context-free policies. *)

From Coq Require Import Reals List ZArith Lia Lra Bool Permutation.
From Verif Require Import Num NpList M_Utils M_Policy S_Base S_Tuning S_Policy L_Num L_Base L_Tuning.
Import ListNotations.
Open Scope R_scope.

Lemma NoDup_firstn {A} n (l : list A) : NoDup l -> NoDup (firstn n l).
Proof.
  revert l. induction n; intros l H; simpl. constructor. destruct l; simpl. constructor.
  inversion H; subst. constructor; auto. intros Hi. apply H2. clear -Hi. revert l Hi.
  induction n; simpl; intros l Hi. destruct Hi. destruct l; simpl in *; [destruct Hi|]. destruct Hi; auto.
Qed.
Lemma In_firstn {A} n (l : list A) x : In x (firstn n l) -> In x l.
Proof.
  revert l. induction n; simpl; intros l Hi. destruct Hi. destruct l; simpl in *; [destruct Hi|]. destruct Hi; auto.
Qed.
Lemma nth_firstn {A} n (l : list A) i d : (i < n)%nat -> nth i (firstn n l) d = nth i l d.
Proof.
  revert l i. induction n; intros l i H. lia. destruct l; simpl. destruct i; auto. destruct i; auto. apply IHn. lia.
Qed.

Lemma top_k_ranking argsort L xs : is_argsort xs (argsort xs) -> (L <= length xs)%nat ->
  is_ranking (length xs) L (top_k argsort L xs).
Proof.
  intros (H1 & H2 & H3 & _) HL. unfold top_k. split; [|split].
  - apply NoDup_firstn. apply NoDup_rev. exact H1.
  - rewrite firstn_length, rev_length, H2. lia.
  - intros a Ha. apply In_firstn in Ha. apply in_rev in Ha. auto.
Qed.

Lemma top_k_best argsort K L f : is_argsort (tabF K f) (argsort (tabF K f)) -> (L <= K)%nat ->
  best_first K L f (top_k argsort L (tabF K f)).
Proof.
  intros H HL. pose proof H as (H1 & H2 & H3 & H4).
  assert (HK : length (tabF K f) = K) by (unfold tabF; apply tab_length).
  rewrite HK in *.
  assert (HR : is_ranking K L (top_k argsort L (tabF K f))).
  { rewrite <- HK at 1. apply top_k_ranking; auto. rewrite HK. exact HL. }
  set (r := rev (argsort (tabF K f))) in *.
  assert (Hr : length r = K) by (unfold r; rewrite rev_length; auto).
  assert (HS : forall i j, (i < j < K)%nat -> f (nth j r 0%nat) <= f (nth i r 0%nat)).
  { intros i j Hij. unfold r. rewrite !rev_nth by lia. rewrite H2.
    assert (Hb := H4 (K - S j)%nat (K - S i)%nat ltac:(lia)).
    assert (B1 : (nth (K - S j) (argsort (tabF K f)) 0 < K)%nat) by (apply H3, nth_In; lia).
    assert (B2 : (nth (K - S i) (argsort (tabF K f)) 0 < K)%nat) by (apply H3, nth_In; lia).
    unfold tabF in Hb at 2 4. rewrite !nth_tab in Hb by assumption. destruct Hb as [Hb|Hb]; [discriminate|].
    simpl in Hb. apply Rleb_true in Hb. exact Hb. }
  split; [exact HR|]. unfold top_k in *. fold r in HR |- *. split.
  - intros i j Hij. rewrite !nth_firstn by lia. apply HS. lia.
  - intros a b Ha Hna Hb.
    assert (Hin : In a r).
    { unfold r. apply -> in_rev. apply is_argsort_perm in H. rewrite HK in H. apply (Permutation_in _ (Permutation_sym H)).
      apply in_seq. lia. }
    apply (In_nth _ _ 0%nat) in Hin as (j & Hj & <-).
    apply (In_nth _ _ 0%nat) in Hb as (i & Hi & <-). rewrite firstn_length in Hi.
    rewrite nth_firstn by lia. destruct (le_lt_dec L j) as [HLj|HLj].
    + apply HS. lia.
    + exfalso. apply Hna. rewrite <- (nth_firstn L r j 0%nat HLj). apply nth_In. rewrite firstn_length. lia.
Qed.

Lemma np_index_valid K a : valid_action K a -> np_index K a = Ok (slot K a) /\ (slot K a < K)%nat.
Proof.
  unfold valid_action, np_index, slot. intros H. destruct (Z.ltb_spec a 0).
  - assert (E : ((0 <=? a + Z.of_nat K) && (a + Z.of_nat K <? Z.of_nat K))%Z%bool = true) by (apply andb_true_iff; split; [apply Z.leb_le|apply Z.ltb_lt]; lia).
    rewrite E. split; [reflexivity|]. lia.
  - assert (E : ((0 <=? a) && (a <? Z.of_nat K))%Z%bool = true) by (apply andb_true_iff; split; [apply Z.leb_le|apply Z.ltb_lt]; lia).
    rewrite E. split; [reflexivity|]. lia.
Qed.
Lemma np_index_invalid K a : ~ valid_action K a -> np_index K a = Err IndexError.
Proof.
  unfold valid_action, np_index. intros H. destruct (Z.ltb_spec a 0).
  - destruct (Z.leb_spec 0 (a + Z.of_nat K)), (Z.ltb_spec (a + Z.of_nat K) (Z.of_nat K)); simpl; auto. lia.
  - destruct (Z.leb_spec 0 a), (Z.ltb_spec a (Z.of_nat K)); simpl; auto. lia.
Qed.

Lemma set_nth_tab {A} n (f : nat -> A) i v : (i < n)%nat ->
  set_nth (tab n f) i v = tab n (fun j => if Nat.eqb j i then v else f j).
Proof.
  revert f i. induction n; intros f i H. lia. rewrite !tab_S_first. destruct i; simpl.
  - f_equal.
  - f_equal. rewrite IHn by lia. apply tab_ext. reflexivity.
Qed.
Lemma set_nth_length {A} (l : list A) i v : length (set_nth l i v) = length l.
Proof. revert i. induction l; destruct i; simpl; auto. Qed.

Lemma times_app K h1 h2 a : times K (h1 ++ h2) a = (times K h1 a + times K h2 a)%nat.
Proof. induction h1 as [|[b r] h1 IH]; simpl; auto. rewrite IH. lia. Qed.
Lemma total_app K h1 h2 a : total K (h1 ++ h2) a = total K h1 a + total K h2 a.
Proof. induction h1 as [|[b r] h1 IH]; simpl. lra. rewrite IH. lra. Qed.

Lemma div_mul_S n B : (0 < B)%nat ->
  (S n / B * B)%nat = if Nat.eqb (S n mod B) 0 then S n else (n / B * B)%nat.
Proof.
  intros HB. pose proof (Nat.div_mod (S n) B ltac:(lia)) as E1. pose proof (Nat.div_mod n B ltac:(lia)) as E2.
  pose proof (Nat.mod_upper_bound (S n) B ltac:(lia)). pose proof (Nat.mod_upper_bound n B ltac:(lia)).
  destruct (Nat.eqb_spec (S n mod B) 0). lia.
  set (q1 := (S n / B)%nat) in *. set (q2 := (n / B)%nat) in *. assert (q1 = q2); [|subst q1; lia].
  set (m1 := (S n mod B)%nat) in *. set (m2 := (n mod B)%nat) in *. clearbody q1 q2 m1 m2. nia.
Qed.

Lemma committed_snoc {A} B (h : list A) e : (0 < B)%nat ->
  committed B (h ++ [e]) = if Nat.eqb (S (length h) mod B) 0 then h ++ [e] else committed B h.
Proof.
  intros HB. unfold committed. rewrite app_length. simpl length. rewrite Nat.add_1_r, div_mul_S by auto.
  destruct (Nat.eqb_spec (S (length h) mod B) 0).
  - rewrite firstn_all2; auto. rewrite app_length; simpl; lia.
  - rewrite firstn_app. assert (length h / B * B <= length h)%nat.
    { pose proof (Nat.div_mod (length h) B ltac:(lia)). lia. }
    replace (length h / B * B - length h)%nat with 0%nat by lia. simpl. rewrite app_nil_r. reflexivity.
Qed.

(** The object reached after a history of accepted updates. *)
Definition after (K L B : nat) (h : history) : cfp :=
  mkCfp K L B (length h) (tabZ K (times K (committed B h))) (tabZ K (times K h))
        (tabF K (total K h)) (tabF K (total K (committed B h))).

Lemma zzeros_tab K : zzeros K = tabZ K (fun _ => 0%nat).
Proof. unfold zzeros, tabZ, tab. induction K; simpl; auto. f_equal. rewrite IHK. rewrite <- seq_shift, map_map. reflexivity. Qed.
Lemma fzeros_tab K : repeat (Fin 0) K = tabF K (fun _ => 0).
Proof. unfold tabF, tab. induction K; simpl; auto. f_equal. rewrite IHK. rewrite <- seq_shift, map_map. reflexivity. Qed.

Lemma post_init_inv K L B p : cf_post_init K L B = Ok p ->
  (2 <= K)%Z /\ (1 <= L <= K)%Z /\ (1 <= B)%Z /\
  p = mkCfp (Z.to_nat K) (Z.to_nat L) (Z.to_nat B) 0 (zzeros (Z.to_nat K)) (zzeros (Z.to_nat K))
            (repeat (Fin 0) (Z.to_nat K)) (repeat (Fin 0) (Z.to_nat K)).
Proof.
  unfold cf_post_init, check_scalar_Z, raise_if.
  destruct (Z.ltb_spec K 2); simpl; [discriminate|]. destruct (Z.ltb_spec L 1); simpl; [discriminate|].
  destruct (Z.ltb_spec K L); simpl; [discriminate|]. destruct (Z.ltb_spec B 1); simpl; [discriminate|].
  intros H4. injection H4 as <-. repeat split; auto.
Qed.
Lemma post_init_ok K L B : (2 <= K)%Z -> (1 <= L <= K)%Z -> (1 <= B)%Z ->
  cf_post_init K L B = Ok (after (Z.to_nat K) (Z.to_nat L) (Z.to_nat B) []).
Proof.
  intros HK [HL1 HL2] HB. unfold cf_post_init, check_scalar_Z, raise_if.
  destruct (Z.ltb_spec K 2); [lia|]. destruct (Z.ltb_spec L 1); [lia|].
  destruct (Z.ltb_spec K L); [lia|]. destruct (Z.ltb_spec B 1); [lia|]. simpl.
  unfold after, committed. rewrite firstn_nil. simpl. rewrite zzeros_tab, fzeros_tab. reflexivity.
Qed.
Lemma post_init_after K L B p : cf_post_init K L B = Ok p ->
  p = after (Z.to_nat K) (Z.to_nat L) (Z.to_nat B) [].
Proof.
  intros H. pose proof (post_init_inv _ _ _ _ H) as (H1 & H2 & H3 & _). rewrite post_init_ok in H by lia. congruence.
Qed.

Lemma update_after K L B h a r : (0 < B)%nat -> valid_action K a ->
  cf_update_params (after K L B h) a (Fin r) = (after K L B (h ++ [(a, r)]), Ok tt).
Proof.
  intros HB Ha. destruct (np_index_valid K a Ha) as [E Hs]. unfold cf_update_params, after at 1.
  cbn [cf_n_actions cf_n_trial cf_len_list cf_batch_size cf_action_counts cf_action_counts_temp cf_reward_counts cf_reward_counts_temp after].
  rewrite E.
  assert (E1 : set_nth (tabZ K (times K h)) (slot K a) (nth (slot K a) (tabZ K (times K h)) 0 + 1)%Z = tabZ K (times K (h ++ [(a, r)]))).
  { unfold tabZ. rewrite nth_tab, set_nth_tab by auto. apply tab_ext. intros i Hi. rewrite times_app. simpl.
    rewrite (Nat.eqb_sym (slot K a) i). destruct (Nat.eqb_spec i (slot K a)); subst; lia. }
  assert (E2 : set_nth (tabF K (total K h)) (slot K a) (nadd (nth (slot K a) (tabF K (total K h)) NaN) (Fin r)) = tabF K (total K (h ++ [(a, r)]))).
  { unfold tabF. rewrite nth_tab, set_nth_tab by auto. simpl nadd. apply tab_ext. intros i Hi. rewrite total_app. simpl.
    rewrite (Nat.eqb_sym (slot K a) i). destruct (Nat.eqb_spec i (slot K a)); subst; f_equal; lra. }
  cbv zeta. rewrite E1, E2. unfold after. rewrite app_length. simpl (length [_]). rewrite Nat.add_1_r.
  rewrite committed_snoc by auto. destruct (Nat.eqb (S (length h) mod B) 0); reflexivity.
Qed.

Definition all_valid (K : nat) (h : history) : Prop := forall e, In e h -> valid_action K (fst e).

Lemma updates_after K L B h : (0 < B)%nat -> all_valid K h -> forall h0,
  updates (after K L B h0) h = after K L B (h0 ++ h).
Proof.
  intros HB. induction h as [|[a r] h IH]; intros Hv h0; simpl. rewrite app_nil_r. reflexivity.
  change (updates (fst (cf_update_params (after K L B h0) a (Fin r))) h = after K L B (h0 ++ (a, r) :: h)).
  rewrite update_after; auto. 2:{ apply (Hv (a, r)). left. reflexivity. }
  simpl fst. rewrite IH. rewrite <- app_assoc. reflexivity. intros e He. apply Hv. right. auto.
Qed.

(** Shape of every reachable object. *)
Definition shaped (K L B : nat) (p : cfp) : Prop :=
  cf_n_actions p = K /\ cf_len_list p = L /\ cf_batch_size p = B /\
  length (cf_action_counts p) = K /\ length (cf_action_counts_temp p) = K /\
  length (cf_reward_counts p) = K /\ length (cf_reward_counts_temp p) = K.

Lemma reachable_shaped ok K L B p : reachable ok K L B p ->
  (2 <= K)%Z /\ (1 <= L <= K)%Z /\ (1 <= B)%Z /\ shaped (Z.to_nat K) (Z.to_nat L) (Z.to_nat B) p.
Proof.
  induction 1 as [p H|p a r H (H1 & H2 & H3 & H4) _|p H (H1 & H2 & H3 & H4)].
  - apply post_init_inv in H as (H1 & H2 & H3 & ->). repeat split; auto; try lia; cbn; unfold zzeros; rewrite ?repeat_length; reflexivity.
  - split; [exact H1|split; [exact H2|split; [exact H3|]]]. destruct H4 as (A1 & A2 & A3 & A4 & A5 & A6 & A7).
    unfold cf_update_params. destruct (np_index _ _); cbn; unfold shaped; cbn.
    + destruct (Nat.eqb _ _); rewrite ?set_nth_length; repeat split; auto.
    + repeat split; auto.
  - split; [exact H1|split; [exact H2|split; [exact H3|]]]. destruct H4 as (A1 & A2 & A3 & _).
    unfold cf_initialize, shaped, zzeros; cbn. rewrite ?repeat_length. repeat split; auto.
Qed.

Lemma zminl_pos l m : zminl l = Ok m -> ((0 < m)%Z <-> forall z, In z l -> (0 < z)%Z).
Proof.
  destruct l as [|x l]; simpl; [discriminate|]. intros H. injection H as <-.
  assert (G : forall l x, (0 < fold_left Z.min l x)%Z <-> (0 < x /\ forall z, In z l -> 0 < z)%Z).
  { clear. induction l as [|y l IH]; intros x; simpl. intuition. rewrite IH. split.
    - intros [H1 H2]. split; [lia|]. intros z [<-|Hz]; [lia|auto].
    - intros [H1 H2]. split; [|intros; apply H2; auto]. specialize (H2 y (or_introl eq_refl)). lia. }
  rewrite G. split.
  - intros [H1 H2] z [<-|Hz]; auto.
  - intros H. split; [apply H; left; reflexivity|]. intros z Hz; apply H; right; auto.
Qed.

Lemma total_bounds K h a : (forall e, In e h -> 0 <= snd e <= 1) -> 0 <= total K h a <= INR (times K h a).
Proof.
  induction h as [|[b r] h IH]; intros H; simpl. simpl; lra.
  destruct IH as [I1 I2]; [intros e He; apply H; right; auto|].
  specialize (H (b, r) (or_introl eq_refl)). simpl in H. destruct (Nat.eqb (slot K b) a).
  - rewrite plus_INR. simpl. lra.
  - simpl. lra.
Qed.
Lemma In_committed {A} B (h : list A) e : In e (committed B h) -> In e h.
Proof. apply In_firstn. Qed.

Lemma bts_params_after K L B h al be : bts_params (after K L B h) (tabF K al) (tabF K be) =
  Ok (tabF K (fun a => total K (committed B h) a + al a),
      tabF K (fun a => INR (times K (committed B h) a) - total K (committed B h) a + be a)).
Proof.
  unfold bts_params, after; cbn [cf_reward_counts cf_action_counts].
  assert (E : map (fun z => Fin (IZR z)) (tabZ K (times K (committed B h))) = tab K (fun a => Fin (INR (times K (committed B h) a)))).
  { unfold tabZ. rewrite map_tab. apply tab_ext. intros i Hi. rewrite <- INR_IZR_INZ. reflexivity. }
  rewrite E. unfold tabF. rewrite !bcast2_tab. cbn [bind]. rewrite !bcast2_tab. reflexivity.
Qed.

Lemma bump_ok K L sel c : (forall p, (p < L)%nat -> (nth p sel 0 < K)%nat) ->
  bump_positions L sel (tab2F K L c) =
  tab2F K L (fun a p => c a p + (if Nat.eqb (nth p sel 0%nat) a then 1 else 0)).
Proof.
  intros Hs. unfold bump_positions.
  assert (G : forall l, (l <= L)%nat ->
    fold_left (fun m pos => let a := nth pos sel 0%nat in
       set_nth m a (set_nth (nth a m []) pos (nadd (nth_num (nth a m []) pos) (Fin 1)))) (seq 0 l) (tab2F K L c)
    = tab2F K L (fun a p => c a p + (if (Nat.ltb p l && Nat.eqb (nth p sel 0%nat) a)%bool then 1 else 0))).
  { induction l; intros Hl.
    - simpl. unfold tab2F. apply tab_ext. intros a Ha. unfold tabF. apply tab_ext. intros p Hp. f_equal. simpl. lra.
    - rewrite seq_S, fold_left_app, IHl by lia. simpl fold_left. cbv zeta. simpl (0 + l)%nat.
      assert (Hn : (nth l sel 0 < K)%nat) by (apply Hs; lia).
      unfold tab2F. rewrite nth_tab, set_nth_tab by auto. apply tab_ext. intros a Ha.
      destruct (Nat.eqb_spec a (nth l sel 0%nat)) as [->|Hne].
      + unfold tabF. unfold nth_num. rewrite nth_tab, set_nth_tab by lia. apply tab_ext. intros p Hp.
        destruct (Nat.eqb_spec p l) as [->|Hpl].
        * simpl nadd. rewrite Nat.eqb_refl. destruct (Nat.ltb_spec l l); [lia|]. destruct (Nat.ltb_spec l (S l)); [|lia]. simpl. f_equal; lra.
        * destruct (Nat.ltb_spec p l), (Nat.ltb_spec p (S l)); try lia; reflexivity.
      + unfold tabF. apply tab_ext. intros p Hp.
        destruct (Nat.ltb_spec p l), (Nat.ltb_spec p (S l)); try lia; try reflexivity.
        assert (p = l) by lia; subst p. destruct (Nat.eqb_spec (nth l sel 0%nat) a); [congruence|]. reflexivity. }
  rewrite G by lia. unfold tab2F. apply tab_ext. intros a Ha. unfold tabF. apply tab_ext. intros p Hp.
  destruct (Nat.ltb_spec p L); [reflexivity|lia].
Qed.

(** How many of the first [n] rankings put action [a] at position [p]. *)
Lemma sim_loop argsort al be p K L (draws : nat -> list num -> list num -> list num) (sel : nat -> list nat) n :
  (forall s, (s < n)%nat -> bts_select_action argsort al be p (draws s) = Ok (sel s) /\ is_ranking K L (sel s)) ->
  fold_left (fun acc s => m <- acc ;; sl <- bts_select_action argsort al be p (draws s) ;;
                          Ok (bump_positions L sl m)) (seq 0 n) (Ok (repeat (repeat (Fin 0) L) K))
  = Ok (tab2F K L (fun a q => sumn n (fun s => if Nat.eqb (nth q (sel s) 0%nat) a then 1 else 0))).
Proof.
  induction n; intros H.
  - simpl. f_equal. unfold tab2F. rewrite fzeros_tab. unfold tab. clear. 
    induction K; simpl; auto. f_equal. rewrite IHK. rewrite <- seq_shift, map_map. reflexivity.
  - rewrite seq_S, fold_left_app, IHn by (intros; apply H; lia). simpl fold_left.
    destruct (H n ltac:(lia)) as [E (R1 & R2 & R3)]. rewrite E. cbn [bind]. f_equal.
    rewrite bump_ok. reflexivity. intros q Hq. apply R3. apply nth_In. lia.
Qed.

Lemma sumn_indicator K b : (b < K)%nat -> sumn K (fun a => if Nat.eqb b a then 1 else 0) = 1.
Proof.
  induction K; intros H. lia. simpl. destruct (Nat.eqb_spec b K).
  - subst. assert (E : sumn K (fun a => if Nat.eqb K a then 1 else 0) = 0).
    { apply sumn_zero. intros i Hi. destruct (Nat.eqb_spec K i); [lia|reflexivity]. } rewrite E. lra.
  - rewrite IHK by lia. lra.
Qed.

(** Reward totals stay between 0 and the counts when rewards are in [0,1]. *)
Definition counted (K : nat) (ac : list Z) (rc : list num) : Prop :=
  exists n s, ac = tabZ K n /\ rc = tabF K s /\ forall a, (a < K)%nat -> 0 <= s a <= INR (n a).

Lemma counted_zero K : counted K (zzeros K) (repeat (Fin 0) K).
Proof.
  exists (fun _ => 0%nat), (fun _ => 0). rewrite zzeros_tab, fzeros_tab. repeat split; auto; simpl; lra.
Qed.

Lemma reachable_counted K L B p : reachable unit_reward K L B p ->
  counted (Z.to_nat K) (cf_action_counts p) (cf_reward_counts p) /\
  counted (Z.to_nat K) (cf_action_counts_temp p) (cf_reward_counts_temp p).
Proof.
  induction 1 as [p H|p a r H [IH1 IH2] Hr|p H _].
  - apply post_init_inv in H as (H1 & H2 & H3 & ->). cbn. split; apply counted_zero.
  - apply reachable_shaped in H as (_ & _ & _ & H4). destruct H4 as (A1 & _).
    unfold cf_update_params. rewrite A1. set (k := Z.to_nat K) in *. destruct (np_index k a) as [i|e] eqn:E; cbn; [|split; auto].
    assert (Hi : (i < k)%nat).
    { unfold np_index in E. destruct (_ && _)%bool eqn:E1 in E; [|discriminate]. injection E as <-.
      apply andb_true_iff in E1 as [E1 E2]. apply Z.leb_le in E1. apply Z.ltb_lt in E2. lia. }
    assert (G : counted k (set_nth (cf_action_counts_temp p) i (nth i (cf_action_counts_temp p) 0 + 1)%Z)
                 (set_nth (cf_reward_counts_temp p) i (nadd (nth i (cf_reward_counts_temp p) NaN) r))).
    { destruct IH2 as (n & s & -> & -> & Hb). destruct Hr as (x & -> & Hx).
      exists (fun j => if Nat.eqb j i then S (n i) else n j), (fun j => if Nat.eqb j i then s i + x else s j).
      unfold tabZ, tabF. rewrite !nth_tab, !set_nth_tab by auto. split; [|split].
      - apply tab_ext. intros j Hj. destruct (Nat.eqb_spec j i); lia.
      - apply tab_ext. intros j Hj. destruct (Nat.eqb_spec j i); reflexivity.
      - intros j Hj. specialize (Hb j Hj) as Hbj. specialize (Hb i Hi). destruct (Nat.eqb_spec j i); [rewrite S_INR|]; lra. }
    split; [|exact G]. destruct (Nat.eqb _ 0); auto.
  - unfold cf_initialize; cbn. apply reachable_shaped in H as (_ & _ & _ & A1 & _). rewrite A1. split; apply counted_zero.
Qed.

Lemma forallb_tab_ok {A} (b : A -> bool) n y : (forall i, (i < n)%nat -> b (y i) = true) -> forallb b (tab n y) = true.
Proof. intros H. apply forallb_forall. intros x Hx. apply In_tab in Hx as (i & Hi & <-). auto. Qed.
