(** * L_Offline: lemmas about the offline learners. *)

From Coq Require Import Reals List ZArith Bool Lia Lra.
From Verif Require Import Num NpList M_Utils M_Multi M_Feedback M_Offline.
From Verif Require Import S_Base S_Tuning S_Policy L_Num L_Base L_Utils L_Estimators L_Tuning L_Multi.
From Coquelicot Require Import Coquelicot.
From Verif Require Import S_Offline.
Import ListNotations.
Open Scope R_scope.

(** ** one-hot writes *)

Lemma repeat_tab {A} (x : A) n : repeat x n = tab n (fun _ => x).
Proof. induction n; auto. rewrite tab_S_first. simpl. rewrite IHn. reflexivity. Qed.

Lemma zeros3_tab n K L : zeros3 n K L = tab3 n K L (fun _ _ _ => Fin 0).
Proof. unfold zeros3, tab3. rewrite !repeat_tab. reflexivity. Qed.

Lemma upd_cell_tab f K L (x : nat -> nat -> num) a p : (a < K)%nat -> (p < L)%nat ->
  upd_cell f (tab K (fun c => tab L (x c))) (Z.of_nat a) p =
  Ok (tab K (fun c => tab L (fun q => if Nat.eqb c a && Nat.eqb q p then f (x c q) else x c q))).
Proof.
  intros Ha Hp. unfold upd_cell. rewrite np_get_tab by auto. cbn [bind].
  rewrite np_get_tab by auto. cbn [bind]. rewrite np_set_tab by auto. cbn [bind].
  rewrite np_set_tab by auto. f_equal. apply tab_ext. intros c Hc.
  destruct (Nat.eqb_spec c a) as [->|]; apply tab_ext; intros q Hq; simpl; auto.
  destruct (Nat.eqb_spec q p) as [->|]; auto.
Qed.

Lemma upd_cells_tab f n K L (x : nat -> nat -> nat -> num) act p :
  (forall i, (i < n)%nat -> (act i < K)%nat) -> (p < L)%nat ->
  upd_cells f (tab3 n K L x) (tabZ n act) p =
  Ok (tab3 n K L (fun i a q => if Nat.eqb a (act i) && Nat.eqb q p then f (x i a q) else x i a q)).
Proof.
  intros Ha Hp. unfold upd_cells, tab3, tabZ. rewrite !tab_length, Nat.eqb_refl, combine_tab.
  apply mapM_tab. intros i Hi. cbn [fst snd]. apply upd_cell_tab; auto.
Qed.

Lemma tab3_ext {A} n K L (f g : nat -> nat -> nat -> A) :
  (forall i a p, (i < n)%nat -> (a < K)%nat -> (p < L)%nat -> f i a p = g i a p) -> tab3 n K L f = tab3 n K L g.
Proof.
  intros H. unfold tab3. apply tab_ext; intros i Hi. apply tab_ext; intros a Ha. apply tab_ext; intros p Hp. auto.
Qed.

Lemma loopM_app {A S} (f : S -> A -> res S) l1 l2 s :
  loopM f (l1 ++ l2) s = bind (loopM f l1 s) (loopM f l2).
Proof.
  revert s; induction l1; intros s; simpl; auto. destruct (f s a); simpl; auto.
Qed.

Lemma onehot_loop f n K L act (g : list (list (list num)) -> nat -> res (list (list (list num)))) :
  f (Fin 0) = Fin 1 ->
  (forall i p, (i < n)%nat -> (p < L)%nat -> (act i p < K)%nat) ->
  (forall x p, (p < L)%nat -> g (tab3 n K L x) p = upd_cells f (tab3 n K L x) (tabZ n (fun i => act i p)) p) ->
  loopM g (seq 0 L) (zeros3 n K L) = Ok (one_hot3 n K L act).
Proof.
  intros Hf Ha Hg.
  assert (H : forall m, (m <= L)%nat -> loopM g (seq 0 m) (zeros3 n K L) =
    Ok (tab3 n K L (fun i a p => if Nat.ltb p m && Nat.eqb a (act i p) then Fin 1 else Fin 0))).
  { induction m; intros Hm.
    - simpl. f_equal. apply zeros3_tab.
    - rewrite seq_S, loopM_app, IHm by lia. cbn [bind loopM Nat.add].
      rewrite Hg, upd_cells_tab by (auto with arith; lia). cbn [bind]. f_equal. apply tab3_ext.
      intros i a p Hi Hk Hp. destruct (Nat.eqb_spec p m) as [->|Hpm].
      + rewrite Nat.ltb_irrefl. replace (Nat.ltb m (S m)) with true by (symmetry; apply Nat.ltb_lt; lia).
        simpl. destruct (Nat.eqb a (act i m)); simpl; auto.
      + rewrite andb_false_r. replace (Nat.ltb p (S m)) with (Nat.ltb p m); auto.
        destruct (Nat.ltb_spec p m), (Nat.ltb_spec p (S m)); auto; lia. }
  rewrite H by auto. f_equal. unfold one_hot3, tab3F, tab2F, tabF. apply tab3_ext. intros i a p Hi Hk Hp.
  replace (Nat.ltb p L) with true by (symmetry; apply Nat.ltb_lt; lia). simpl.
  destruct (Nat.eqb_spec a (act i p)), (Nat.eq_dec (act i p) a); auto; congruence.
Qed.

Lemma loopM_inv {A S} (f : S -> A -> res S) l (Q : exn -> Prop) s :
  (forall x s, match f s x with Err e => Q e | _ => True end) ->
  match loopM f l s with Err e => Q e | _ => True end.
Proof.
  intros H. revert s; induction l; intros s; simpl; auto. specialize (H a s).
  destruct (f s a); simpl; [apply IHl|exact H].
Qed.

Lemma loopM_ok_each {A S} (f : S -> A -> res S) l s s' : loopM f l s = Ok s' ->
  forall x, In x l -> exists u v, f u x = Ok v.
Proof.
  revert s; induction l; intros s H x Hx; [easy|]. simpl in H. destruct (f s a) eqn:E; [|easy]. simpl in H.
  destruct Hx as [->|Hx]; eauto.
Qed.

(** ** argmax *)

Lemma argmax_from_spec (f : nat -> num) m i best at_ :
  (at_ < i)%nat ->
  let r := argmax_from best at_ i (tab m (fun j => f (i + j)%nat)) in
  (r = at_ \/ (i <= r < i + m)%nat).
Proof.
  revert i best at_; induction m; intros i best at_ Hat; [cbn; auto|].
  rewrite tab_S_first. cbn [argmax_from]. cbv zeta.
  destruct (negb (is_nan best) && (is_nan (f (i + 0)%nat) || nlt best (f (i + 0)%nat))).
  - rewrite (tab_ext m _ (fun j => f (S i + j)%nat)) by (intros; f_equal; lia).
    destruct (IHm (S i) (f (i + 0)%nat) i) as [->|H]; lia.
  - rewrite (tab_ext m _ (fun j => f (S i + j)%nat)) by (intros; f_equal; lia).
    destruct (IHm (S i) best at_) as [->|H]; lia.
Qed.

Lemma argmax_from_best (f : nat -> R) m i at_ :
  (at_ < i)%nat -> (forall b, (b < i)%nat -> f b <= f at_) -> (forall b, (b < at_)%nat -> f b < f at_) ->
  first_best (i + m) f (argmax_from (Fin (f at_)) at_ i (tab m (fun j => Fin (f (i + j)%nat)))).
Proof.
  revert i at_; induction m; intros i at_ Hat H1 H2.
  - cbn. rewrite Nat.add_0_r. split; auto.
  - rewrite tab_S_first. cbn [argmax_from is_nan negb orb andb nlt]. rewrite Nat.add_0_r.
    rewrite (tab_ext m _ (fun j => Fin (f (S i + j)%nat))) by (intros; do 2 f_equal; lia).
    replace (i + S m)%nat with (S i + m)%nat by lia.
    destruct (Rltb (f at_) (f i)) eqn:E.
    + apply Rltb_true in E. apply IHm; auto.
      * intros b Hb. destruct (Nat.eq_dec b i) as [->|]; [lra|]. specialize (H1 b ltac:(lia)). lra.
      * intros b Hb. specialize (H1 b Hb). lra.
    + apply Rltb_false in E. apply IHm; auto.
      intros b Hb. destruct (Nat.eq_dec b i) as [->|]; [lra|]. apply H1; lia.
Qed.

Lemma np_argmax_ok K (f : nat -> num) : (0 < K)%nat ->
  exists a, np_argmax (tab K f) = Ok a /\ (a < K)%nat.
Proof.
  intros HK. destruct K; [lia|]. rewrite tab_S_first. cbn [np_argmax].
  eexists; split; [reflexivity|].
  destruct (argmax_from_spec f K 1 (f 0%nat) 0 ltac:(lia)) as [H|H];
    rewrite (tab_ext K (fun i => f (S i)) (fun j => f (1 + j)%nat)) by auto; [rewrite H|]; lia.
Qed.

Lemma np_argmax_best K (f : nat -> R) a : (0 < K)%nat -> np_argmax (tabF K f) = Ok a -> first_best K f a.
Proof.
  intros HK H. destruct K; [lia|]. unfold tabF in H. rewrite tab_S_first in H. cbn [np_argmax] in H.
  injection H as <-. apply (argmax_from_best f K 1 0); try lia.
  intros b Hb. replace b with 0%nat by lia. lra.
Qed.

(** ** rankings *)

Lemma is_argsort_all xs idx : is_argsort xs idx -> forall a, (a < length xs)%nat -> In a idx.
Proof.
  intros (Hnd & Hlen & Hin & _) a Ha.
  assert (incl (seq 0 (length xs)) idx).
  { apply NoDup_length_incl; auto. rewrite seq_length; lia. intros x Hx. apply in_seq. specialize (Hin x Hx). lia. }
  apply H. apply in_seq; lia.
Qed.

Lemma firstn_NoDup {A} n (l : list A) : NoDup l -> NoDup (firstn n l).
Proof.
  intros H. rewrite <- (firstn_skipn n l) in H. revert H. generalize (skipn n l), (firstn n l).
  intros l1 l2. induction l2; simpl; intros H; [constructor|]. inversion H; subst. constructor; auto.
  intro; apply H2. apply in_app_iff; auto.
Qed.

Lemma In_firstn {A} n (l : list A) x : In x (firstn n l) -> In x l.
Proof. intros H. rewrite <- (firstn_skipn n l). apply in_app_iff; auto. Qed.

Lemma nth_firstn_lt {A} n (l : list A) i d : (i < n)%nat -> nth i (firstn n l) d = nth i l d.
Proof.
  revert l i; induction n; intros l i Hi; [lia|]. destruct l; [destruct i; reflexivity|].
  destruct i; simpl; auto. apply IHn; lia.
Qed.

Lemma argsort_is_ranking xs idx L : is_argsort xs idx -> (L <= length xs)%nat ->
  is_ranking (length xs) L (firstn L idx).
Proof.
  intros (Hnd & Hlen & Hin & _) HL. split; [|split].
  - apply firstn_NoDup; auto.
  - rewrite firstn_length; lia.
  - intros a Ha. apply Hin. eapply In_firstn; eauto.
Qed.

Lemma argsort_best_first K L (s : nat -> R) idx :
  is_argsort (map nopp (tabF K s)) idx -> (L <= K)%nat -> best_first K L s (firstn L idx).
Proof.
  intros H HL.
  assert (El : length (map nopp (tabF K s)) = K) by (rewrite map_length; unfold tabF; apply tab_length).
  assert (Hv : forall a, (a < K)%nat -> nth a (map nopp (tabF K s)) NaN = Fin (- s a)).
  { intros a Ha. unfold tabF. rewrite map_tab, nth_tab by auto. reflexivity. }
  pose proof (argsort_is_ranking _ _ L H ltac:(lia)) as Hr. rewrite El in Hr.
  destruct H as (Hnd & Hlen & Hin & Hord). rewrite El in *.
  assert (Hle : forall j k, (j < k < K)%nat -> s (nth k idx 0%nat) <= s (nth j idx 0%nat)).
  { intros j k Hjk. specialize (Hord j k ltac:(lia)).
    rewrite !Hv in Hord by (apply Hin, nth_In; lia).
    destruct Hord as [|Hord]; [easy|]. simpl in Hord. apply Rleb_true in Hord. lra. }
  split; auto. split.
  - intros i j Hij. rewrite !nth_firstn_lt by lia. apply Hle; lia.
  - intros a b Ha Hna Hb.
    assert (Hia : In a idx).
    { assert (incl (seq 0 K) idx).
      { apply NoDup_length_incl; auto. rewrite seq_length; lia. intros x Hx. apply in_seq. specialize (Hin x Hx). lia. }
      apply H. apply in_seq; lia. }
    apply (In_nth _ _ 0%nat) in Hia as (ka & Hka & Ea). apply (In_nth _ _ 0%nat) in Hb as (kb & Hkb & Eb).
    rewrite firstn_length in Hkb. rewrite nth_firstn_lt in Eb by lia.
    assert (L <= ka)%nat.
    { destruct (Nat.lt_ge_cases ka L); auto. exfalso. apply Hna. rewrite <- Ea.
      rewrite <- (nth_firstn_lt L idx ka 0%nat) by auto. apply nth_In. rewrite firstn_length; lia. }
    rewrite <- Ea, <- Eb. apply Hle. lia.
Qed.

(** ** sample_action *)

Lemma noisy_scores_tab n K L' (s : nat -> nat -> nat -> num) tau (g : nat -> nat -> num) :
  noisy_scores (tab3 n K L' s) tau (tab n (fun i => tab K (g i))) =
  Ok (tab n (fun i => tab K (fun a => nadd (ndiv (nmean (tab L' (s i a))) tau) (g i a)))).
Proof.
  unfold noisy_scores, tab3. rewrite map_tab, !tab_length, Nat.eqb_refl, combine_tab.
  apply mapM_tab. intros i Hi. cbn [fst snd]. rewrite map_tab. apply bcast2_tab.
Qed.

Definition rank_of (argsort : list num -> list nat) K L' (s : nat -> nat -> nat -> num) tau (g : nat -> nat -> num)
  (i : nat) : list nat :=
  argsort (map nopp (tab K (fun a => nadd (ndiv (nmean (tab L' (s i a))) tau) (g i a)))).

Lemma sample_ranking_tab argsort n K L L' s tau g :
  (forall xs, is_argsort xs (argsort xs)) -> (L <= K)%nat -> nlt tau (Fin 0) = false ->
  sample_ranking argsort n K L (tab3 n K L' s) tau (tab n (fun i => tab K (g i))) =
  Ok (one_hot3 n K L (fun i p => nth p (firstn L (rank_of argsort K L' s tau g i)) 0%nat)).
Proof.
  intros Hs HL Ht. unfold sample_ranking, check_scalar. rewrite Ht. cbn [raise_if bind].
  rewrite noisy_scores_tab. cbn [bind]. rewrite map_tab.
  assert (Hlen : forall i, length (rank_of argsort K L' s tau g i) = K).
  { intros i. unfold rank_of. destruct (Hs (map nopp (tab K (fun a =>
      nadd (ndiv (nmean (tab L' (s i a))) tau) (g i a))))) as (_ & -> & _).
    rewrite map_length. apply tab_length. }
  assert (Hin : forall i a, In a (rank_of argsort K L' s tau g i) -> (a < K)%nat).
  { intros i a Ha. unfold rank_of in Ha. destruct (Hs (map nopp (tab K (fun a =>
      nadd (ndiv (nmean (tab L' (s i a))) tau) (g i a))))) as (_ & _ & Hi & _).
    specialize (Hi a Ha). rewrite map_length, tab_length in Hi. auto. }
  apply (onehot_loop (fun _ => Fin 1)); auto.
  - intros i p Hi Hp. apply (Hin i). rewrite nth_firstn_lt by auto. apply nth_In. rewrite Hlen; lia.
  - intros x p Hp.
    rewrite (mapM_tab n _ _ (fun i => Z.of_nat (nth p (firstn L (rank_of argsort K L' s tau g i)) 0%nat))).
    + cbn [bind]. reflexivity.
    + intros i Hi. fold (rank_of argsort K L' s tau g i). rewrite nth_firstn_lt by auto.
      rewrite (nth_error_nth' _ 0%nat) by (rewrite Hlen; lia). reflexivity.
Qed.

Lemma rank_of_ranking argsort K L L' s tau g i :
  (forall xs, is_argsort xs (argsort xs)) -> (L <= K)%nat ->
  is_ranking K L (firstn L (rank_of argsort K L' s tau g i)).
Proof.
  intros Hs HL. unfold rank_of.
  set (xs := map nopp _). assert (El : length xs = K) by (unfold xs; rewrite map_length; apply tab_length).
  pose proof (argsort_is_ranking xs (argsort xs) L (Hs xs)). rewrite El in H. auto.
Qed.

Lemma rank_of_best argsort K L L' (s : nat -> nat -> nat -> num) tau (g : nat -> nat -> num) i s0 tau0 g0 :
  (forall xs, is_argsort xs (argsort xs)) -> (L <= K)%nat -> (0 < L')%nat -> tau = Fin tau0 -> tau0 <> 0 ->
  (forall a p, (a < K)%nat -> (p < L')%nat -> s i a p = Fin (s0 a p)) ->
  (forall a, (a < K)%nat -> g i a = Fin (g0 a)) ->
  best_first K L (fun a => avg L' (s0 a) / tau0 + g0 a) (firstn L (rank_of argsort K L' s tau g i)).
Proof.
  intros Hs HL HL' -> Ht H1 H2. apply argsort_best_first; auto.
  assert (E : rank_of argsort K L' s (Fin tau0) g i =
              argsort (map nopp (tabF K (fun a => avg L' (s0 a) / tau0 + g0 a)))).
  { unfold rank_of. do 2 f_equal. unfold tabF. apply tab_ext. intros a Ha.
    rewrite (tab_ext L' (s i a) (fun p => Fin (s0 a p))) by (intros; apply H1; auto).
    fold (tabF L' (s0 a)). rewrite nmean_tabF by auto. rewrite ndiv_Fin by auto. rewrite H2 by auto. reflexivity. }
  rewrite E. apply Hs.
Qed.

(** ** softmax on floats *)

Lemma Rmaxl_tab_is_max n f : (0 < n)%nat -> is_max n f (Rmaxl (tab n f)).
Proof.
  intros Hn. destruct (nmaxl_tabF n f Hn) as (m & E & H).
  destruct n; [lia|]. rewrite tabF_map, tab_S_first in E. simpl in E. rewrite fold_nmax in E. injection E as <-.
  rewrite tab_S_first. simpl. exact H.
Qed.

Lemma nsoftmax_tab K (x : nat -> R) : (0 < K)%nat ->
  nsoftmax (tabF K x) = Ok (tabF K (fun a => exp (x a) / sumn K (fun b => exp (x b)))).
Proof.
  intros HK. unfold nsoftmax. destruct (nmaxl_tabF K x HK) as (m & -> & _). cbn [bind]. cbv zeta.
  unfold tabF at 1 2. rewrite !map_tab. cbn [nsub nopp nadd nexp].
  change (tab K (fun i => Fin (exp (x i + - m)))) with (tabF K (fun i => exp (x i + - m))).
  rewrite nsum_tabF.
  assert (Hp : 0 < sumn K (fun b => exp (x b))) by (apply sumn_allpos; auto; intros; apply exp_pos).
  assert (E : sumn K (fun i => exp (x i + - m)) = sumn K (fun b => exp (x b)) * exp (- m)).
  { rewrite <- sumn_scal_r. apply sumn_ext. intros. apply exp_plus. }
  rewrite E. unfold tabF. f_equal. apply tab_ext. intros a Ha.
  pose proof (exp_pos (- m)). rewrite ndiv_Fin by nra. f_equal. rewrite exp_plus. field. split; lra.
Qed.

Lemma round_columns_tab K L (x : nat -> nat -> num) :
  round_columns L (tab K (fun a => tab L (x a))) = tab L (fun p => tab K (fun a => x a p)).
Proof.
  unfold round_columns. change (map ?f (seq 0 L)) with (tab L f). apply tab_ext. intros p Hp.
  rewrite map_tab. apply tab_ext. intros a Ha. unfold nth_num. apply nth_tab; auto.
Qed.

Lemma softmax_axis1_tab n K L (x : nat -> nat -> nat -> num) (y : nat -> nat -> nat -> num) :
  (forall i p, (i < n)%nat -> (p < L)%nat -> nsoftmax (tab K (fun a => x i a p)) = Ok (tab K (fun a => y i a p))) ->
  softmax_axis1 L (tab3 n K L x) = Ok (tab3 n K L y).
Proof.
  intros H. unfold softmax_axis1, tab3. apply mapM_tab. intros i Hi. rewrite round_columns_tab.
  rewrite (mapM_tab L _ _ (fun p => tab K (fun a => y i a p))) by (intros; apply H; auto).
  cbn [bind]. rewrite tab_length, round_columns_tab. reflexivity.
Qed.

Lemma div3_tab n K L x tau : div3 (tab3 n K L x) tau = tab3 n K L (fun i a p => ndiv (x i a p) tau).
Proof.
  unfold div3, tab3. rewrite map_tab. apply tab_ext; intros. rewrite map_tab. apply tab_ext; intros.
  apply map_tab.
Qed.

Lemma boltzmann_array n K L (s : nat -> nat -> nat -> R) tau : 0 < tau -> (0 < K)%nat ->
  softmax_axis1 L (div3 (tab3F n K L s) (Fin tau)) =
  Ok (tab3F n K L (fun i a p => boltzmann K (fun b => s i b p) tau a)).
Proof.
  intros Ht HK. unfold tab3F at 1, tab2F, tabF.
  change (tab n (fun i => tab K (fun i0 => tab L (fun i1 => Fin (s i i0 i1))))) with
    (tab3 n K L (fun i a p => Fin (s i a p))).
  rewrite div3_tab. unfold tab3F, tab2F, tabF.
  apply (softmax_axis1_tab n K L _ (fun i a p => Fin (boltzmann K (fun b => s i b p) tau a))).
  intros i p Hi Hp.
  rewrite (tab_ext K _ (fun a => Fin (s i a p / tau))) by (intros; apply ndiv_Fin; lra).
  apply (nsoftmax_tab K (fun a => s i a p / tau)); auto.
Qed.

(** Division by a zero temperature: every softmax entry is NaN. *)
Lemma inf_or_nan r : ndiv (Fin r) (Fin 0) = inf_sign r.
Proof. simpl. replace (Reqb 0 0) with true by (symmetry; apply Reqb_true; auto). reflexivity. Qed.

Definition special (v : num) : Prop := match v with Fin _ => False | _ => True end.
Lemma inf_sign_special r : special (inf_sign r).
Proof. unfold inf_sign. destruct (Rltb 0 r), (Rltb r 0); exact I. Qed.

Lemma fold_nmax_special l x : special x -> (forall y, In y l -> special y) ->
  special (fold_left nmax l x) /\ (fold_left nmax l x = NaN \/ In (fold_left nmax l x) (x :: l)).
Proof.
  revert x; induction l as [|y l IH]; intros x Hx Hl; simpl; [auto|].
  assert (Hm : special (nmax x y) /\ (nmax x y = NaN \/ nmax x y = x \/ nmax x y = y)).
  { specialize (Hl y (or_introl eq_refl)). destruct x, y; simpl in *; try easy; unfold nmax; simpl; auto. }
  destruct Hm as [Hm1 Hm2]. destruct (IH (nmax x y) Hm1) as [H1 H2]. { intros; apply Hl; right; auto. }
  split; auto. destruct H2 as [|H2]; auto. simpl in H2. destruct H2 as [H2|H2]; auto.
  rewrite <- H2. destruct Hm2 as [->|[->| ->]]; auto.
Qed.

Lemma nsoftmax_special K x : (0 < K)%nat -> (forall a, (a < K)%nat -> special (x a)) ->
  nsoftmax (tab K x) = Ok (tab K (fun _ => NaN)).
Proof.
  intros HK Hx. unfold nsoftmax. destruct K; [lia|].
  assert (Hb : exists b, nmaxl (tab (S K) x) = Ok b /\ special b /\ (b = NaN \/ In b (tab (S K) x))).
  { rewrite tab_S_first. simpl. eexists; split; [reflexivity|]. apply fold_nmax_special.
    apply Hx; lia. intros y Hy. apply In_tab in Hy as (i & Hi & <-). apply Hx; lia. }
  destruct Hb as (b & -> & Hs & Hb). cbn [bind]. cbv zeta. f_equal. rewrite !map_tab.
  assert (HN : nsum (tab (S K) (fun i => nexp (nsub (x i) b))) = NaN).
  { destruct Hb as [->|Hb].
    - apply nsum_NaN. apply In_tab. exists 0%nat. split; [lia|]. destruct (x 0%nat); reflexivity.
    - apply In_tab in Hb as (i & Hi & <-). apply nsum_NaN. apply In_tab. exists i. split; auto.
      destruct (x i); simpl; easy. }
  rewrite HN. apply tab_ext. intros i Hi. destruct (nexp (nsub (x i) b)); reflexivity.
Qed.

(** ** the policy-gradient objective *)

Lemma pick_tab n K (x : nat -> nat -> num) a : (forall i, (i < n)%nat -> (a i < K)%nat) ->
  pick (tab n (fun i => tab K (x i))) (tabZ n a) = Ok (tab n (fun i => x i (a i))).
Proof.
  intros H. unfold pick, bcast2_idx, tabZ. rewrite bcast2_tab. cbn [bind].
  apply mapM_tab. intros i Hi. cbn [fst snd]. apply np_get_tab. auto.
Qed.

Lemma dm_term_tab n K (q p l : nat -> nat -> R) :
  dm_term (tab2F n K q) (tab2F n K p) (tab2F n K l) = tabF n (fun i => sumn K (fun a => q i a * p i a * l i a)).
Proof.
  unfold dm_term, tab2F. rewrite !combine_tab, map_tab. unfold tabF at 4. apply tab_ext. intros i Hi.
  cbn [fst snd]. unfold tabF. rewrite !combine_tab, map_tab. cbn [fst snd nmul].
  exact (nsum_tabF K (fun a => q i a * p i a * l i a)).
Qed.

(** Derivative of the weight transform. *)
Definition dtransform (o : objective) (lam w : R) : R :=
  match o with
  | IpwOs => lam * (lam - w * w) / ((w * w + lam) * (w * w + lam))
  | IpwSubgauss => (1 - lam) / ((1 - lam + lam * w) * (1 - lam + lam * w))
  | _ => 1
  end.
Definition adjusted_reward (o : objective) (lam : R) (b : batch) (i : nat) : R :=
  match o with
  | Dm => 0
  | Dr => bt_r b i - bt_q b i (bt_a b i)
  | Snipw => bt_r b i - lam
  | _ => bt_r b i
  end.
(** The round value of the surrogate: [pi] detached, [live] differentiated. *)
Definition surrogate (o : objective) (lam : R) (b : batch) (pi live : nat -> nat -> R) (i : nat) : R :=
  let w := b_weight b pi i in
  w * dtransform o lam w * adjusted_reward o lam b i * ln (live i (bt_a b i)) +
  match o with
  | Dm | Dr => sumn (bt_K b) (fun a => bt_q b i a * pi i a * ln (live i a))
  | _ => 0
  end.

Definition lam_ok (o : objective) (lv : num) (lam : R) : Prop :=
  match o with
  | Dm | Ipw | Dr => True
  | Snipw | IpwOs => lv = Fin lam /\ 0 <= lam
  | IpwSubgauss => lv = Fin lam /\ 0 <= lam <= 1
  end.

Lemma nn_lambda_ok o l lv : nn_lambda o (option_map Fin l) = Ok lv -> lam_ok o lv (lambda_value o l).
Proof.
  intros H. destruct o; simpl; auto; destruct l as [x|]; simpl in H; unfold check_scalar in H; simpl in H;
    unfold lambda_value;
    repeat match type of H with context [Rltb ?a ?b] => destruct (Rltb a b) eqn:?; simpl in H; try discriminate end;
    injection H as <-; rewrite ?Rltb_false in *; split; auto; lra.
Qed.

Definition positive (b : batch) (pi : nat -> nat -> R) : Prop :=
  forall i a, (i < bt_n b)%nat -> (a < bt_K b)%nat -> 0 < pi i a.

Lemma b_weight_pos b pi i : batch_ok b -> positive b pi -> (i < bt_n b)%nat -> 0 < b_weight b pi i.
Proof.
  intros Hb Hp Hi. unfold b_weight. apply Rdiv_lt_0_compat. apply Hp; auto. apply Hb; auto. apply Hb; auto.
Qed.

Lemma log_tab n K live : (forall i a, (i < n)%nat -> (a < K)%nat -> 0 < live i a) ->
  map (map nlog) (tab2F n K live) = tab2F n K (fun i a => ln (live i a)).
Proof.
  intros H. unfold tab2F. rewrite map_tab. apply tab_ext. intros i Hi. unfold tabF. rewrite map_tab.
  apply tab_ext. intros a Ha. apply nlog_Fin. auto.
Qed.

Lemma weighted_tab b pi live (f : num -> num) (g : nat -> R) (r : nat -> R) :
  batch_ok b -> positive b pi ->
  (forall i, (i < bt_n b)%nat -> f (Fin (b_weight b pi i)) = Fin (g i)) ->
  (pa <- pick (tab2F (bt_n b) (bt_K b) pi) (b_actions b) ;;
   iw <- bcast2 ndiv pa (b_pscores b) ;;
   c <- bcast2 nmul (map f iw) (tabF (bt_n b) r) ;;
   la <- pick (tab2F (bt_n b) (bt_K b) (fun i a => ln (live i a))) (b_actions b) ;;
   bcast2 nmul c la) = Ok (tabF (bt_n b) (fun i => g i * r i * ln (live i (bt_a b i)))).
Proof.
  intros Hb Hp Hf. unfold tab2F, tabF, b_actions. rewrite pick_tab by apply Hb. cbn [bind].
  unfold b_pscores, tabF. rewrite bcast2_tab. cbn [bind]. rewrite map_tab.
  rewrite (tab_ext (bt_n b) _ (fun i => Fin (g i))).
  2:{ intros i Hi. rewrite ndiv_Fin. apply Hf; auto. pose proof (bo_p b Hb i Hi). lra. }
  rewrite bcast2_tab. cbn [bind]. rewrite pick_tab by apply Hb. cbn [bind].
  rewrite bcast2_tab. f_equal.
Qed.

Lemma policy_grad_arr_ok o lv lam b pi live : batch_ok b -> lam_ok o lv lam -> positive b pi -> positive b live ->
  policy_grad_arr o lv (b_model b) (tab2F (bt_n b) (bt_K b) pi) (tab2F (bt_n b) (bt_K b) live) (b_actions b)
    (b_rewards b) (b_pscores b) = Ok (tabF (bt_n b) (surrogate o lam b pi live)).
Proof.
  intros Hb Hl Hp Hv. unfold policy_grad_arr. rewrite log_tab by auto. cbv zeta.
  assert (Hw : forall i, (i < bt_n b)%nat -> 0 < b_weight b pi i) by (intros; apply b_weight_pos; auto).
  destruct o.
  - unfold b_model. rewrite dm_term_tab. f_equal. unfold tabF. apply tab_ext. intros i Hi.
    unfold surrogate, dtransform, adjusted_reward. f_equal. ring.
  - unfold b_rewards. rewrite (weighted_tab b pi live _ (fun i => b_weight b pi i)) by auto.
    f_equal. unfold tabF. apply tab_ext. intros i Hi. unfold surrogate, dtransform, adjusted_reward. f_equal. ring.
  - unfold b_model at 1, tab2F at 1, tabF at 1, b_actions at 1. rewrite pick_tab by apply Hb. cbn [bind].
    unfold b_rewards, tabF at 1. rewrite bcast2_tab. cbn [bind nsub nopp nadd].
    change (tab (bt_n b) (fun i => Fin (bt_r b i + - bt_q b i (bt_a b i)))) with
      (tabF (bt_n b) (fun i => bt_r b i + - bt_q b i (bt_a b i))).
    rewrite (weighted_tab b pi live _ (fun i => b_weight b pi i)) by auto. cbn [bind].
    unfold b_model. rewrite dm_term_tab. unfold tabF. rewrite bcast2_tab. f_equal.
    apply tab_ext. intros i Hi. unfold surrogate, dtransform, adjusted_reward. cbn [nadd]. f_equal. ring.
  - destruct Hl as [-> Hl]. unfold b_rewards, tabF at 1. rewrite map_tab. cbn [nsub nopp nadd].
    change (tab (bt_n b) (fun i => Fin (bt_r b i + - lam))) with (tabF (bt_n b) (fun i => bt_r b i + - lam)).
    rewrite (weighted_tab b pi live _ (fun i => b_weight b pi i)) by auto.
    f_equal. unfold tabF. apply tab_ext. intros i Hi. unfold surrogate, dtransform, adjusted_reward. f_equal. ring.
  - destruct Hl as [-> Hl]. unfold b_rewards.
    rewrite (weighted_tab b pi live _ (fun i => b_weight b pi i * dtransform IpwOs lam (b_weight b pi i))); auto.
    + f_equal. unfold tabF. apply tab_ext. intros i Hi. unfold surrogate, adjusted_reward. f_equal. ring.
    + intros i Hi. specialize (Hw i Hi). set (w := b_weight b pi i) in *. unfold nsqr, nsub. cbn [nmul nopp nadd].
      assert (0 < w * w + lam) by nra. rewrite ndiv_Fin by nra. cbn [nmul]. f_equal. unfold dtransform. field. nra.
  - destruct Hl as [-> Hl]. unfold b_rewards.
    rewrite (weighted_tab b pi live _ (fun i => b_weight b pi i * dtransform IpwSubgauss lam (b_weight b pi i))); auto.
    + f_equal. unfold tabF. apply tab_ext. intros i Hi. unfold surrogate, adjusted_reward. f_equal. ring.
    + intros i Hi. specialize (Hw i Hi). set (w := b_weight b pi i) in *. unfold nsqr, nsub. cbn [nmul nopp nadd].
      assert (0 < 1 - lam + lam * w). { destruct (Req_dec lam 1) as [->|]; nra. }
      rewrite ndiv_Fin by nra. f_equal. unfold dtransform. field. nra.
Qed.

Lemma is_derive_sumn n (f : R -> nat -> R) (t0 : R) (d : nat -> R) :
  (forall i, (i < n)%nat -> is_derive (fun t => f t i) t0 (d i)) ->
  is_derive (fun t => sumn n (f t)) t0 (sumn n d).
Proof.
  induction n; intros H; simpl. apply (is_derive_const (V := R_NormedModule)).
  apply (is_derive_plus (V := R_NormedModule)); auto.
Qed.

Lemma is_derive_eq (f : R -> R) (x d d' : R) : is_derive f x d -> d = d' -> is_derive f x d'.
Proof. intros H <-. exact H. Qed.

Lemma is_derive_avg n (f : R -> nat -> R) (t0 : R) (d : nat -> R) :
  (forall i, (i < n)%nat -> is_derive (fun t => f t i) t0 (d i)) ->
  is_derive (fun t => avg n (f t)) t0 (avg n d).
Proof.
  intros H. unfold avg, Rdiv.
  apply (is_derive_ext (fun t => / INR n * sumn n (f t))). { intros; apply Rmult_comm. }
  rewrite Rmult_comm. apply is_derive_scal. apply is_derive_sumn; auto.
Qed.

Lemma is_derive_ln (f : R -> R) (x d : R) : 0 < f x -> is_derive f x d -> is_derive (fun t => ln (f t)) x (d / f x).
Proof.
  intros Hp H. apply is_derive_eq with (scal d (/ f x)).
  2:{ change (d * / f x = d / f x). reflexivity. }
  apply (is_derive_comp ln f); auto.
  apply is_derive_Reals. apply derivable_pt_lim_ln; auto.
Qed.

(** The gradient of the round value of the objective. *)
Definition dround (o : objective) (lam : R) (b : batch) (pi dpi : nat -> nat -> R) (i : nat) : R :=
  dtransform o lam (b_weight b pi i) * (dpi i (bt_a b i) / bt_p b i) * adjusted_reward o lam b i +
  match o with
  | Dm | Dr => sumn (bt_K b) (fun a => bt_q b i a * dpi i a)
  | _ => 0
  end.

Lemma surrogate_derive o lam b (pi : R -> nat -> nat -> R) (dpi : nat -> nat -> R) t0 i :
  batch_ok b -> positive b (pi t0) -> (i < bt_n b)%nat ->
  (forall a, (a < bt_K b)%nat -> is_derive (fun t => pi t i a) t0 (dpi i a)) ->
  is_derive (fun t => surrogate o lam b (pi t0) (pi t) i) t0 (dround o lam b (pi t0) dpi i).
Proof.
  intros Hb Hp Hi Hd. unfold surrogate, dround.
  pose proof (bo_a b Hb i Hi) as Ha. pose proof (bo_p b Hb i Hi) as Hpi. pose proof (Hp i _ Hi Ha) as Hpa.
  apply (is_derive_plus (V := R_NormedModule)).
  - eapply is_derive_eq.
    { apply is_derive_scal. apply (is_derive_ln (fun t => pi t i (bt_a b i)) _ _ Hpa (Hd _ Ha)). }
    unfold b_weight. cbn beta. field. lra.
  - assert (Hs : is_derive (fun t => sumn (bt_K b) (fun a => bt_q b i a * pi t0 i a * ln (pi t i a))) t0
                   (sumn (bt_K b) (fun a => bt_q b i a * dpi i a))).
    { apply (is_derive_sumn (bt_K b) (fun t a => bt_q b i a * pi t0 i a * ln (pi t i a))). intros a Hk.
      pose proof (Hp i a Hi Hk) as Hpk. eapply is_derive_eq.
      { apply is_derive_scal. apply (is_derive_ln (fun t => pi t i a) _ _ Hpk (Hd _ Hk)). }
      cbn beta. field. lra. }
    destruct o; auto; apply (is_derive_const (V := R_NormedModule)).
Qed.

Lemma transform_derive_os lam (w : R -> R) (t0 d r : R) : 0 <= lam -> 0 < w t0 -> is_derive w t0 d ->
  is_derive (fun t => lam * w t / (w t * w t + lam) * r) t0 (dtransform IpwOs lam (w t0) * d * r).
Proof.
  intros Hl Hw Hd. unfold dtransform.
  assert (He : ex_derive w t0) by (eexists; eauto). apply is_derive_unique in Hd.
  assert (0 < w t0 * w t0 + lam) by nra.
  auto_derive. { repeat split; auto. lra. }
  change (fun x => w x) with w. rewrite Hd. field. lra.
Qed.

Lemma transform_derive_sg lam (w : R -> R) (t0 d r : R) : 0 <= lam <= 1 -> 0 < w t0 -> is_derive w t0 d ->
  is_derive (fun t => w t / (1 - lam + lam * w t) * r) t0 (dtransform IpwSubgauss lam (w t0) * d * r).
Proof.
  intros Hl Hw Hd. unfold dtransform.
  assert (He : ex_derive w t0) by (eexists; eauto). apply is_derive_unique in Hd.
  assert (0 < 1 - lam + lam * w t0). { destruct (Req_dec lam 1) as [->|]; nra. }
  auto_derive. { repeat split; auto. lra. }
  change (fun x => w x) with w. rewrite Hd. field. lra.
Qed.

Lemma round_value_derive o lv lam b (pi : R -> nat -> nat -> R) (dpi : nat -> nat -> R) t0 i :
  batch_ok b -> lam_ok o lv lam -> positive b (pi t0) -> (i < bt_n b)%nat ->
  (forall a, (a < bt_K b)%nat -> is_derive (fun t => pi t i a) t0 (dpi i a)) ->
  is_derive (fun t => round_value o lam b (pi t) i) t0 (dround o lam b (pi t0) dpi i).
Proof.
  intros Hb Hl Hp Hi Hd.
  pose proof (bo_a b Hb i Hi) as Ha. pose proof (bo_p b Hb i Hi) as Hpi.
  assert (Hw : is_derive (fun t => b_weight b (pi t) i) t0 (dpi i (bt_a b i) / bt_p b i)).
  { unfold b_weight, Rdiv.
    apply (is_derive_ext (fun t => / bt_p b i * pi t i (bt_a b i))). { intros; apply Rmult_comm. }
    rewrite Rmult_comm. apply is_derive_scal. auto. }
  assert (Hm : is_derive (fun t => b_modelled b (pi t) i) t0 (sumn (bt_K b) (fun a => bt_q b i a * dpi i a))).
  { unfold b_modelled. apply (is_derive_sumn (bt_K b) (fun t a => bt_q b i a * pi t i a)). intros a Hk.
    apply is_derive_scal. auto. }
  assert (Hs : forall r, is_derive (fun t => b_weight b (pi t) i * r) t0 (dpi i (bt_a b i) / bt_p b i * r)).
  { intros r. apply (is_derive_ext (fun t => r * b_weight b (pi t) i)). { intros; apply Rmult_comm. }
    rewrite Rmult_comm. apply is_derive_scal. auto. }
  pose proof (b_weight_pos b (pi t0) i Hb Hp Hi) as Hpos.
  unfold round_value, dround. destruct o; cbn [dtransform adjusted_reward].
  - eapply is_derive_eq; [exact Hm|ring].
  - eapply is_derive_eq; [apply Hs|ring].
  - eapply is_derive_eq; [apply (is_derive_plus (V := R_NormedModule)); [exact Hm|apply Hs]|].
    unfold plus; simpl. ring.
  - eapply is_derive_eq; [apply Hs|ring].
  - eapply is_derive_eq; [apply (transform_derive_os lam (fun t => b_weight b (pi t) i)); [apply Hl|exact Hpos|exact Hw]|].
    unfold dtransform. ring.
  - eapply is_derive_eq; [apply (transform_derive_sg lam (fun t => b_weight b (pi t) i)); [apply Hl|exact Hpos|exact Hw]|].
    unfold dtransform. ring.
Qed.
