(** * L_Data: lemmas about M_Data. *)

From Coq Require Import String Reals List ZArith Lia Lra Bool Permutation Sorted.
From Verif Require Import Num NpList M_Utils M_Data S_Base S_Data L_Num L_Base L_Utils L_Policy L_EstProps P_Utils.
Import ListNotations.
Open Scope R_scope.

Lemma tab_eta {A} (l : list A) d : l = tab (length l) (fun i => nth i l d).
Proof. apply (nth_ext _ _ d d); [rewrite tab_length; reflexivity|]. intros i Hi. rewrite nth_tab by auto. reflexivity. Qed.
Lemma tab_inj {A} n (f g : nat -> A) : tab n f = tab n g -> forall i, (i < n)%nat -> f i = g i.
Proof. intros E i Hi. rewrite <- (nth_tab n f i (f i)) by auto. rewrite E. apply nth_tab. auto. Qed.
Lemma repeat_is_tab {A} (x : A) n : repeat x n = tab n (fun _ => x).
Proof. induction n; [reflexivity|]. rewrite tab_S_first. cbn [repeat]. rewrite IHn. reflexivity. Qed.

(** ** scatter *)

Lemma nth_set_same {A} (l : list A) i v d : (i < length l)%nat -> nth i (set_nth l i v) d = v.
Proof. revert i. induction l as [|x l IH]; intros [|i] H; cbn in *; try lia; auto. apply IH. lia. Qed.
Lemma nth_set_other {A} (l : list A) i j v d : j <> i -> nth j (set_nth l i v) d = nth j l d.
Proof. revert i j. induction l as [|x l IH]; intros [|i] [|j] H; cbn; auto; try congruence. Qed.

Lemma scatter_length row idx vals : length (scatter row idx vals) = length row.
Proof.
  unfold scatter. revert row vals. induction idx as [|i idx IH]; intros row [|v vals]; cbn [combine fold_left]; auto. rewrite IH. apply set_nth_length.
Qed.
Lemma scatter_out row idx vals a : ~ In a idx -> nth a (scatter row idx vals) 0 = nth a row 0.
Proof.
  unfold scatter. revert row vals. induction idx as [|i idx IH]; intros row [|v vals] H; cbn [combine fold_left]; auto.
  rewrite IH by (intros G; apply H; right; auto). cbn [fst snd]. apply nth_set_other. intros ->. apply H. left. auto.
Qed.
Lemma scatter_in row idx vals j : NoDup idx -> (forall a, In a idx -> (a < length row)%nat) -> length vals = length idx -> (j < length idx)%nat ->
  nth (nth j idx 0%nat) (scatter row idx vals) 0 = nth j vals 0.
Proof.
  unfold scatter. revert row vals j. induction idx as [|i idx IH]; intros row [|v vals] j ND Hr HL Hj; cbn [length] in *; try lia; cbn [combine fold_left fst snd].
  inversion ND; subst. destruct j as [|j].
  - cbn [nth]. change (fold_left _ (combine idx vals) (set_nth row i v)) with (scatter (set_nth row i v) idx vals). rewrite scatter_out by auto.
    apply nth_set_same. apply Hr. left. auto.
  - cbn [nth]. apply IH; auto; try lia. intros a Ha. rewrite set_nth_length. apply Hr. right. auto.
Qed.

(** ** The selected actions *)

Lemma NoDup_app_left {A} (l1 l2 : list A) : NoDup (l1 ++ l2) -> NoDup l1.
Proof. induction l1 as [|x l1 IH]; intros H; [constructor|]. inversion H; subst. constructor; auto. intros G. apply H2. apply in_app_iff. auto. Qed.

Lemma SSorted_app_inv {A} (R : A -> A -> Prop) l1 l2 : StronglySorted R (l1 ++ l2) -> forall a b, In a l1 -> In b l2 -> R a b.
Proof.
  induction l1 as [|x l1 IH]; intros H a b Ha Hb; [destruct Ha|]. cbn [app] in H. inversion H as [|? ? Hs Hf]; subst. destruct Ha as [->|Ha]; [|eapply IH; eauto].
  rewrite Forall_forall in Hf. apply Hf. apply in_app_iff. auto.
Qed.
Lemma top_selected argsort (g : list R) m : sorts argsort -> (m <= length g)%nat ->
  selected (length g) m (fun a => nth a g 0) (top argsort g m) /\
  exists rest, Permutation (seq 0 (length g)) (top argsort g m ++ rest).
Proof.
  intros Hs Hm. destruct (Hs g) as [P S]. unfold top. set (l := rev (argsort g)).
  assert (Pl : Permutation l (seq 0 (length g))) by (unfold l; rewrite <- Permutation_rev; exact P).
  assert (Len : length l = length g) by (rewrite (Permutation_length Pl), seq_length; reflexivity).
  assert (ND : NoDup l) by (eapply Permutation_NoDup; [apply Permutation_sym; exact Pl|apply seq_NoDup]).
  assert (E : l = firstn m l ++ skipn m l) by (symmetry; apply firstn_skipn).
  split; [|exists (skipn m l); rewrite <- E; apply Permutation_sym; exact Pl].
  split; [|split; [|split]].
  - rewrite E in ND. eapply NoDup_app_left; eauto.
  - rewrite firstn_length. lia.
  - intros a Ha. assert (In a l) by (rewrite E; apply in_app_iff; auto). rewrite Pl in H. apply in_seq in H. lia.
  - intros a b Ha Hb Nb. assert (Bl : In b (skipn m l)).
    { assert (In b l) by (rewrite Pl; apply in_seq; lia). rewrite E in H. apply in_app_iff in H as [H|H]; [contradiction|auto]. }
    assert (Ea : argsort g = rev (skipn m l) ++ rev (firstn m l)) by (rewrite <- rev_app_distr, <- E; unfold l; rewrite rev_involutive; reflexivity).
    rewrite Ea in S. apply (SSorted_app_inv _ _ _ S); apply -> in_rev; auto.
Qed.

Lemma sum_over_perm S T f : Permutation S T -> sum_over S f = sum_over T f.
Proof. intros P. unfold sum_over. apply fold_Rplus_perm. apply Permutation_map. auto. Qed.
Lemma sum_over_app S T f : sum_over (S ++ T) f = sum_over S f + sum_over T f.
Proof. unfold sum_over. rewrite map_app. apply Rsum_app. Qed.
Lemma sum_over_zero S f : (forall a, In a S -> f a = 0) -> sum_over S f = 0.
Proof. unfold sum_over. induction S as [|a S IH]; cbn; intros H; [reflexivity|]. rewrite H, IH by auto. ring. Qed.
Lemma sum_over_ext S f g : (forall a, In a S -> f a = g a) -> sum_over S f = sum_over S g.
Proof. intros H. unfold sum_over. f_equal. apply map_ext_in. auto. Qed.
Lemma sum_over_seq n f : sum_over (seq 0 n) f = sumn n f.
Proof. unfold sum_over. change (map f (seq 0 n)) with (tab n f). apply Rsum_tab. Qed.
Lemma sum_over_div S f c : sum_over S (fun a => f a / c) = sum_over S f / c.
Proof. unfold sum_over. induction S as [|a S IH]; cbn; [unfold Rdiv; ring|]. rewrite IH. unfold Rdiv. ring. Qed.
Lemma sum_over_pos S f : S <> [] -> (forall a, In a S -> 0 < f a) -> 0 < sum_over S f.
Proof. intros HS H. apply Rsum_pos; [destruct S; [congruence|discriminate]|]. intros v Hv. apply in_map_iff in Hv as (a & <- & Ha). auto. Qed.

Lemma perm_rest (l S rest : list nat) a : Permutation l (S ++ rest) -> NoDup l -> In a rest -> ~ In a S.
Proof.
  intros P ND Hr HS. apply (Permutation_NoDup P) in ND. apply in_split in HS as (l1 & l2 & ->). rewrite <- app_assoc in ND. cbn [app] in ND.
  apply NoDup_remove_2 in ND. apply ND. apply in_app_iff. right. apply in_app_iff. auto.
Qed.

(** One row of the behaviour policy: the softmax over the selected actions, zero elsewhere. *)
Lemma softmax_map (S : list nat) (f : nat -> R) j : (j < length S)%nat ->
  nth j (softmax_row (map f S)) 0 = exp (f (nth j S 0%nat)) / sum_over S (fun b => exp (f b)).
Proof.
  intros Hj. rewrite softmax_row_nth by (rewrite map_length; auto). rewrite (nth_indep _ 0 (f 0%nat)) by (rewrite map_length; auto). rewrite map_nth.
  rewrite map_map. reflexivity.
Qed.

Lemma deficient_row_ok argsort beta K g lg m : sorts argsort -> (0 < m <= K)%nat ->
  let S := top argsort (tab K g) m in selected K m g S /\ softmax_on K S beta lg (fun a => nth a (deficient_row argsort beta (tab K g) (tab K lg) m) 0) /\
    length (deficient_row argsort beta (tab K g) (tab K lg) m) = K /\ exists rest, Permutation (seq 0 K) (S ++ rest).
Proof.
  intros Hs Hm S. destruct (top_selected argsort (tab K g) m Hs) as [Hsel Hrest]; [rewrite tab_length; lia|]. rewrite tab_length in *.
  unfold deficient_row. fold S. fold S in Hsel, Hrest.
  destruct Hsel as (ND & HL & Hin & Hord).
  assert (Hlen : length (softmax_row (map (fun a => beta * nth a (tab K lg) 0) S)) = length S) by (rewrite softmax_row_length, map_length; reflexivity).
  split; [|split; [|split]].
  - split; [exact ND|]. split; [exact HL|]. split; [exact Hin|]. intros a b Ha Hb Nb. specialize (Hord a b Ha Hb Nb). rewrite !nth_tab in Hord by auto. exact Hord.
  - split.
    + intros a Ha HaS. destruct (In_nth _ _ 0%nat HaS) as (j & Hj & <-). rewrite scatter_in; auto; [|intros b Hb; rewrite map_length, tab_length; auto].
      rewrite softmax_map by auto. unfold boltzmann_on. rewrite nth_tab by auto. f_equal. apply sum_over_ext. intros b Hb. rewrite nth_tab by auto. reflexivity.
    + intros a Ha Na. rewrite scatter_out by auto. rewrite map_tab. rewrite nth_tab by auto. reflexivity.
  - rewrite scatter_length, map_length, tab_length. reflexivity.
  - exact Hrest.
Qed.
Lemma full_row_ok beta K lg : (0 < K)%nat -> softmax_on K (seq 0 K) beta lg (fun a => nth a (softmax_row (map (fun v => beta * v) (tab K lg))) 0) /\
  length (softmax_row (map (fun v => beta * v) (tab K lg))) = K.
Proof.
  intros HK. rewrite map_tab. split; [|rewrite softmax_row_length, tab_length; reflexivity]. split.
  - intros a Ha _. unfold tab. rewrite softmax_map by (rewrite seq_length; auto). rewrite seq_nth by auto. reflexivity.
  - intros a Ha Na. exfalso. apply Na. apply in_seq. lia.
Qed.

Lemma softmax_on_dist K S beta lg pi : softmax_on K S beta lg pi -> S <> [] -> (exists rest, Permutation (seq 0 K) (S ++ rest)) ->
  (forall a, (a < K)%nat -> 0 <= pi a) /\ sumn K pi = 1 /\ (forall a, (a < K)%nat -> (0 < pi a <-> In a S)).
Proof.
  intros [Hi Ho] HS (rest & P).
  assert (D : 0 < sum_over S (fun b => exp (beta * lg b))) by (apply sum_over_pos; auto; intros; apply exp_pos).
  assert (Pos : forall a, 0 < boltzmann_on S beta lg a) by (intros; apply Rdiv_lt_0_compat; [apply exp_pos|auto]).
  assert (Dec : forall a, In a S \/ ~ In a S) by (intros a; destruct (in_dec Nat.eq_dec a S); auto).
  assert (Sub : forall a, In a S -> (a < K)%nat) by (intros a Ha; assert (In a (seq 0 K)) by (rewrite P; apply in_app_iff; auto); apply in_seq in H; lia).
  split; [|split].
  - intros a Ha. destruct (Dec a); [rewrite Hi by auto; left; auto|rewrite Ho by auto; lra].
  - rewrite <- sum_over_seq. rewrite (sum_over_perm _ _ _ P), sum_over_app. rewrite (sum_over_zero rest).
    + rewrite (sum_over_ext S pi (fun a => exp (beta * lg a) / sum_over S (fun b => exp (beta * lg b)))) by (intros; apply Hi; auto).
      rewrite sum_over_div. field. lra.
    + intros a Ha. assert (In a (seq 0 K)) by (rewrite P; apply in_app_iff; auto). apply in_seq in H. apply Ho; [lia|]. eapply perm_rest; eauto. apply seq_NoDup.
  - intros a Ha. destruct (Dec a) as [H|H]; [rewrite Hi by auto; split; auto|rewrite Ho by auto]. split; [lra|contradiction].
Qed.

(** The whole behaviour policy. *)
Lemma behaviour_ok argsort n K df beta (g lg : nat -> nat -> R) : sorts argsort -> (df < K)%nat ->
  exists (pi : nat -> nat -> R) (S : nat -> list nat),
    behaviour argsort K df (tab n beta) (tabR2 n K g) (tabR2 n K lg) = tabR2 n K pi /\
    forall i, (i < n)%nat -> selected K (K - df) (g i) (S i) /\ softmax_on K (S i) (beta i) (lg i) (pi i) /\ exists rest, Permutation (seq 0 K) (S i ++ rest).
Proof.
  intros Hs Hd. unfold behaviour, tabR2. destruct (Nat.ltb_spec 0 df) as [H0|H0].
  - exists (fun i a => nth a (deficient_row argsort (beta i) (tab K (g i)) (tab K (lg i)) (K - df)) 0), (fun i => top argsort (tab K (g i)) (K - df)).
    rewrite !combine_tab, map_tab. cbn [fst snd]. split.
    + apply tab_ext. intros i Hi. destruct (deficient_row_ok argsort (beta i) K (g i) (lg i) (K - df) Hs ltac:(lia)) as (_ & _ & HL & _).
      etransitivity; [apply (tab_eta _ 0)|]. rewrite HL. reflexivity.
    + intros i Hi. destruct (deficient_row_ok argsort (beta i) K (g i) (lg i) (K - df) Hs ltac:(lia)) as (H1 & H2 & _ & H3). auto.
  - assert (df = 0)%nat as -> by lia. rewrite Nat.sub_0_r. exists (fun i a => nth a (softmax_row (map (fun v => beta i * v) (tab K (lg i)))) 0), (fun _ => seq 0 K).
    rewrite combine_tab, map_tab. cbn [fst snd]. split.
    + apply tab_ext. intros i Hi. destruct (full_row_ok (beta i) K (lg i) ltac:(lia)) as [_ HL]. etransitivity; [apply (tab_eta _ 0)|]. rewrite HL. reflexivity.
    + intros i Hi. destruct (full_row_ok (beta i) K (lg i) ltac:(lia)) as [H _]. split; [|split; [exact H|exists []; rewrite app_nil_r; apply Permutation_refl]].
      split; [apply seq_NoDup|]. split; [apply seq_length|]. split; [intros a Ha; apply in_seq in Ha; lia|]. intros a b _ Hb Nb. exfalso. apply Nb. apply in_seq. lia.
Qed.

Lemma pick_cols_tab n K (f : nat -> nat -> R) (a : nat -> nat) : (forall i, (i < n)%nat -> (a i < K)%nat) ->
  pick_cols (tabR2 n K f) (tab n a) = tab n (fun i => f i (a i)).
Proof. intros H. unfold pick_cols, tabR2. rewrite combine_tab, map_tab. apply tab_ext. intros i Hi. cbn [fst snd]. apply nth_tab. auto. Qed.

Lemma mean_table_ok d context n m : length context = n -> mean_table d context n m -> calc_expected_reward d context = tabR2 n (ds_K d) m.
Proof.
  unfold mean_table, calc_expected_reward. intros HL. destruct (ds_fun d) as [f|]; [auto|]. intros H. rewrite HL, repeat_is_tab. unfold tabR2. apply tab_ext. auto.
Qed.

(** ** One batch *)

Lemma corrected_tab tn d context n m : length context = n -> mean_table d context n m ->
  corrected tn d context = tabR2 n (ds_K d) (fun i a => reported tn d (m i a)).
Proof.
  intros HL H. unfold corrected. rewrite (mean_table_ok d context n m HL H). unfold reported, truncated_mean. destruct (ds_binary d); [reflexivity|].
  unfold tabR2. rewrite map_tab. apply tab_ext. intros i Hi. rewrite map_tab. reflexivity.
Qed.
Lemma logits_tab d context n q lg expected : logit_table d context n q lg -> expected = tabR2 n (ds_K d) q ->
  match ds_beh d with None => expected | Some f => f context end = tabR2 n (ds_K d) lg.
Proof.
  unfold logit_table. intros H ->. destruct (ds_beh d); [auto|]. unfold tabR2. apply tab_ext. intros i Hi. apply tab_ext. intros a Ha. symmetry. auto.
Qed.

Lemma existsb_tab {A} n (f : nat -> A) p : existsb p (tab n f) = true <-> exists i, (i < n)%nat /\ p (f i) = true.
Proof.
  rewrite existsb_exists. split.
  - intros (x & Hx & Hp). apply In_tab in Hx as (i & Hi & <-). eauto.
  - intros (i & Hi & Hp). exists (f i). split; auto. apply In_tab. eauto.
Qed.
Lemma out_of_range p : (Rltb p 0 || Rltb 1 p)%bool = true <-> p < 0 \/ 1 < p.
Proof. rewrite orb_true_iff, !Rltb_true. tauto. Qed.

Lemma sample_given_tab tn binom d n q act : (forall i, (i < n)%nat -> (act i < ds_K d)%nat) ->
  let r := sample_given tn binom d (tabR2 n (ds_K d) q) (tab n act) in
  (ds_binary d = false -> r = Ok (tab n (fun i => let mu := q i (act i) in
      tn_rvs tn (ds_seed d) ((0 - mu) / ds_std d) ((ds_max d - mu) / ds_std d) mu (ds_std d) i))) /\
  (ds_binary d = true -> (forall i, (i < n)%nat -> 0 <= q i (act i) <= 1) -> r = Ok (tab n (fun i => if binom i (q i (act i)) then 1 else 0))) /\
  (ds_binary d = true -> (exists i, (i < n)%nat /\ ~ (0 <= q i (act i) <= 1)) -> r = Err ValueError).
Proof.
  intros Ha r. unfold r, sample_given. rewrite pick_cols_tab by auto. rewrite tab_length.
  assert (E : combine (seq 0 n) (tab n (fun i => q i (act i))) = tab n (fun i => (i, q i (act i)))).
  { rewrite <- (map_id (seq 0 n)). change (map (fun x => x) (seq 0 n)) with (tab n (fun i => i)). apply combine_tab. }
  rewrite E, !map_tab. cbn [fst snd]. split; [|split]; intros ->; [reflexivity| |].
  - intros H. unfold raise_if. destruct (existsb _ _) eqn:X; [|reflexivity]. apply existsb_tab in X as (i & Hi & X). apply out_of_range in X. specialize (H i Hi). lra.
  - intros (i & Hi & H). unfold raise_if. replace (existsb _ _) with true; [reflexivity|]. symmetry. apply existsb_tab. exists i. split; auto. apply out_of_range. lra.
Qed.

(** ** A sorting function *)

Fixpoint rank_insert (g : list R) (a : nat) (l : list nat) : list nat :=
  match l with
  | [] => [a]
  | b :: r => if Rleb (nth a g 0) (nth b g 0) then a :: b :: r else b :: rank_insert g a r
  end.
Definition insertion_argsort (g : list R) : list nat := fold_right (rank_insert g) [] (seq 0 (length g)).

Lemma rank_insert_perm g a l : Permutation (rank_insert g a l) (a :: l).
Proof.
  induction l as [|b l IH]; cbn; [apply Permutation_refl|]. destruct (Rleb _ _); [apply Permutation_refl|]. rewrite IH. apply perm_swap.
Qed.
Lemma rank_insert_sorted g a l : StronglySorted (fun i j => nth i g 0 <= nth j g 0) l -> StronglySorted (fun i j => nth i g 0 <= nth j g 0) (rank_insert g a l).
Proof.
  induction l as [|b l IH]; intros H; cbn; [repeat constructor|]. inversion H as [|? ? Hs Hf]; subst. destruct (Rleb (nth a g 0) (nth b g 0)) eqn:E.
  - apply Rleb_true in E. constructor; auto. constructor; auto. rewrite Forall_forall in *. intros c Hc. specialize (Hf c Hc). lra.
  - apply Rleb_false in E. constructor; auto. rewrite Forall_forall in *. intros c Hc. apply (Permutation_in _ (rank_insert_perm g a l)) in Hc. destruct Hc as [<-|Hc]; [lra|auto].
Qed.
Lemma insertion_argsort_sorts : sorts insertion_argsort.
Proof.
  intros g. unfold insertion_argsort. generalize (seq 0 (length g)) as l. induction l as [|a l [IH1 IH2]]; cbn [fold_right]; [split; constructor|].
  split; [rewrite rank_insert_perm, IH1; apply Permutation_refl|apply rank_insert_sorted; auto].
Qed.
