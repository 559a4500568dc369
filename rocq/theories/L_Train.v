(** * L_Train: lemmas about the training loop of the neural learners. *)

From Coq Require Import Reals List ZArith Bool Lia Lra.
From Verif Require Import Num NpList M_Offline.
From Verif Require Import S_Base L_Num L_Base.
From Verif Require Import S_Offline.
Import ListNotations.
Open Scope R_scope.

Section Training.
  Context {P B : Type}.
  Variable step : P -> B -> P * num.
  Variable vloss : P -> B -> num.
  Variables (tol : num) (n : Z).
  Notation tb := (train_batches step tol n).
  Notation vb := (validate vloss tol n).
  Notation same_training s s' :=
    (ts_params s = ts_params s' /\ ts_counter s = ts_counter s' /\ ts_previous s = ts_previous s').

  Lemma validate_same l s : same_training (vb l s) s.
  Proof.
    revert s; induction l; intros s; simpl; auto.
    destruct (Z.ltb n _); simpl; auto.
    destruct (IHl (mkTrain (ts_params s) (ts_counter s) (ts_previous s)
      (not_improving tol (vloss (ts_params s) a) (ts_vcounter s) (ts_vprevious s))
      (Some (vloss (ts_params s) a)))) as (H1 & H2 & H3). auto.
  Qed.

  Lemma train_batches_congr l s s' : same_training s s' -> same_training (tb l s) (tb l s').
  Proof.
    revert s s'; induction l; intros s s' (H1 & H2 & H3); simpl; auto.
    rewrite <- H1, <- H2, <- H3. destruct (step (ts_params s) a) as [p x].
    destruct (Z.leb n _); simpl; auto.
  Qed.

  Lemma trained_app p l1 l2 : trained step p (l1 ++ l2) = trained step (trained step p l1) l2.
  Proof. apply fold_left_app. Qed.

  Lemma losses_app p l1 l2 : losses step p (l1 ++ l2) = losses step p l1 ++ losses step (trained step p l1) l2.
  Proof. revert p; induction l1; intros p; simpl; auto. rewrite IHl1. reflexivity. Qed.

  Lemma losses_length p l : length (losses step p l) = length l.
  Proof. revert p; induction l; intros p; simpl; auto. Qed.

  Lemma prefix_of_epoch l s : exists d, is_prefix d l /\ (l <> [] -> d <> []) /\
    ts_params (tb l s) = trained step (ts_params s) d.
  Proof.
    revert s; induction l as [|b r IH]; intros s.
    - exists []. split; [exists []; auto|]. split; auto.
    - simpl. destruct (step (ts_params s) b) as [p x] eqn:E. destruct (Z.leb n _).
      + exists [b]. split; [exists r; auto|]. split; [easy|]. simpl. rewrite E. reflexivity.
      + edestruct IH as (d & [z Hz] & _ & Hd). exists (b :: d). split; [exists z; simpl; congruence|]. split; [easy|].
        rewrite Hd. simpl. rewrite E. reflexivity.
  Qed.

  (** The counter as a function of the losses, as long as nothing has been cut. *)
  Fixpoint ctr (ls : list num) (m : nat) : nat :=
    match m with
    | O => 0
    | S k => if nlt (nsub (nth (S k) ls NaN) (nth k ls NaN)) tol then S (ctr ls k) else 0
    end.

  Lemma ctr_streak ls k m : (m < length ls)%nat -> (k <= ctr ls m)%nat <-> streak tol k ls m.
  Proof.
    revert m; induction k; intros m Hm.
    - split; [|lia]. intros _. split; [lia|]. intros; lia.
    - destruct m as [|m]; [split; [simpl; lia|intros [? _]; lia]|].
      simpl. destruct (nlt (nsub (nth (S m) ls NaN) (nth m ls NaN)) tol) eqn:E.
      + split.
        * intros H. assert (H' : (k <= ctr ls m)%nat) by lia. apply IHk in H' as [H1 H2]; [|lia].
          split; [lia|]. intros j Hj. destruct (Nat.eq_dec j m) as [->|]; [exact E|]. apply H2. lia.
        * intros [H1 H2]. apply le_n_S. apply IHk; [lia|]. split; [lia|]. intros j Hj. apply H2. lia.
      + split; [lia|]. intros [H1 H2]. specialize (H2 m ltac:(lia)). unfold no_rise in H2. congruence.
  Qed.

  (** State reached after the batches [l] when nothing was cut; [ls] are the losses of these and possibly of
      later batches. *)
  Definition uncut (p0 : P) (ls : list num) (l : list B) (s : train_state P) : Prop :=
    ts_params s = trained step p0 l /\
    match length l with
    | O => ts_counter s = 0%Z /\ ts_previous s = None
    | S k => ts_counter s = Z.of_nat (ctr ls k) /\ ts_previous s = Some (nth k ls NaN)
    end.

  Lemma nth_loss p0 l b r : nth (length l) (losses step p0 (l ++ b :: r)) NaN = snd (step (trained step p0 l) b).
  Proof.
    rewrite losses_app, app_nth2; rewrite losses_length; [|lia]. rewrite Nat.sub_diag. reflexivity.
  Qed.

  Lemma uncut_ext p0 ls ls' l s : uncut p0 ls l s -> (forall m, (m < length l)%nat -> nth m ls NaN = nth m ls' NaN) ->
    uncut p0 ls' l s.
  Proof.
    intros [H1 H2] He. split; auto. destruct (length l) as [|k] eqn:El; auto. destruct H2 as [H2 H3].
    assert (Hc : forall m, (m <= k)%nat -> ctr ls m = ctr ls' m).
    { induction m; intros Hm; auto. simpl. rewrite !He, IHm by lia. reflexivity. }
    rewrite H2, H3, Hc, He by lia. auto.
  Qed.

  Lemma train_run p0 l r s : (1 <= n)%Z ->
    uncut p0 (losses step p0 (l ++ r)) l s ->
    (uncut p0 (losses step p0 (l ++ r)) (l ++ r) (tb r s) /\
     forall m, (length l <= m < length (l ++ r))%nat -> ~ (n <= Z.of_nat (ctr (losses step p0 (l ++ r)) m))%Z) \/
    (exists m, (length l <= m < length (l ++ r))%nat /\
      (n <= Z.of_nat (ctr (losses step p0 (l ++ r)) m))%Z /\
      (forall m', (length l <= m' < m)%nat -> ~ (n <= Z.of_nat (ctr (losses step p0 (l ++ r)) m'))%Z) /\
      ts_params (tb r s) = trained step p0 (firstn (S m) (l ++ r))).
  Proof.
    intros Hn. revert l s. induction r as [|b r IH]; intros l s Hu.
    - left. simpl. split. rewrite app_nil_r in *. exact Hu. intros m. rewrite app_nil_r. lia.
    - set (ls := losses step p0 (l ++ b :: r)) in *.
      assert (Hb : nth (length l) ls NaN = snd (step (ts_params s) b)).
      { destruct Hu as [-> _]. apply nth_loss. }
      simpl tb. destruct (step (ts_params s) b) as [p x] eqn:E. simpl in Hb.
      assert (Hp : p = trained step p0 (l ++ [b])).
      { rewrite trained_app. destruct Hu as [<- _]. simpl. rewrite E. reflexivity. }
      assert (Hc : not_improving tol x (ts_counter s) (ts_previous s) = Z.of_nat (ctr ls (length l))).
      { destruct Hu as [_ Hu]. destruct (length l) as [|k]; destruct Hu as [-> ->]; simpl; auto.
        rewrite Hb. destruct (nlt _ tol); lia. }
      assert (El : (l ++ [b]) ++ r = l ++ b :: r) by (rewrite <- app_assoc; reflexivity).
      rewrite Hc. destruct (Z.leb_spec n (Z.of_nat (ctr ls (length l)))) as [Hle|Hgt].
      + right. exists (length l). split. rewrite app_length; simpl; lia. split; auto. split; [intros; lia|].
        simpl ts_params. rewrite Hp. f_equal.
        replace (S (length l)) with (length l + 1)%nat by lia. rewrite firstn_app_2. reflexivity.
      + assert (Hlen : length (l ++ [b]) = S (length l)) by (rewrite app_length; simpl; lia).
        specialize (IH (l ++ [b]) (mkTrain p (Z.of_nat (ctr ls (length l))) (Some x) (ts_vcounter s) (ts_vprevious s))).
        rewrite El in IH. fold ls in IH. rewrite Hlen in IH.
        destruct IH as [[H1 H2]|(m & Hm1 & Hm2 & Hm3 & Hm4)].
        * split; auto. rewrite Hlen. simpl. rewrite Hb. auto.
        * left. split; auto. intros m Hm. destruct (Nat.eq_dec m (length l)) as [->|]; [lia|]. apply H2. lia.
        * right. exists m. split; [lia|]. split; auto. split; auto.
          intros m' Hm'. destruct (Nat.eq_dec m' (length l)) as [->|]; [lia|]. apply Hm3. lia.
  Qed.

  (** The whole fit, when no streak occurs. *)
  Lemma fit_uncut es epochs p0 :
    (1 <= n)%Z ->
    (forall m, ~ streak tol (Z.to_nat n) (losses step p0 (concat (map fst epochs))) m) ->
    ts_params (fit_loop step vloss tol n es epochs p0) = trained step p0 (concat (map fst epochs)).
  Proof.
    intros Hn Hs. unfold fit_loop.
    set (f := fun s e => _).
    set (all := concat (map fst epochs)) in *.
    assert (H : forall epochs' done s, all = done ++ concat (map fst epochs') -> uncut p0 (losses step p0 all) done s ->
              uncut p0 (losses step p0 all) all (fold_left f epochs' s)).
    { induction epochs' as [|e es' IH]; intros done s Ha Hu.
      - simpl in *. rewrite app_nil_r in Ha. rewrite Ha at 2. exact Hu.
      - simpl. simpl in Ha.
        assert (Hle : forall m, (m < length all)%nat -> ~ (n <= Z.of_nat (ctr (losses step p0 all) m))%Z).
        { intros m Hm Hc. apply (Hs m). apply ctr_streak. rewrite losses_length; auto. lia. }
        assert (Hu' : uncut p0 (losses step p0 (done ++ fst e)) done s).
        { apply (uncut_ext p0 (losses step p0 all)); auto. intros m Hm.
          rewrite Ha, !losses_app, !app_nth1; auto; rewrite losses_length; auto. }
        assert (Hlen : (length (done ++ fst e) <= length all)%nat) by (rewrite Ha, app_assoc, !app_length; lia).
        assert (Heq : forall m, (m < length (done ++ fst e))%nat ->
                  nth m (losses step p0 (done ++ fst e)) NaN = nth m (losses step p0 all) NaN).
        { intros m Hm. rewrite Ha, app_assoc. rewrite (losses_app p0 (done ++ fst e)), app_nth1; auto.
          rewrite losses_length; auto. }
        assert (Hctr : forall m, (m < length (done ++ fst e))%nat ->
                  ctr (losses step p0 (done ++ fst e)) m = ctr (losses step p0 all) m).
        { induction m; intros Hm; auto. simpl. rewrite !Heq, IHm by lia. reflexivity. }
        destruct (train_run p0 done (fst e) s Hn Hu') as [[H1 _]|(m & Hm & Hc & _)].
        + apply (IH (done ++ fst e)). rewrite Ha, app_assoc. reflexivity.
          assert (H2 : uncut p0 (losses step p0 all) (done ++ fst e) (tb (fst e) s)).
          { apply (uncut_ext p0 _ (losses step p0 all)) in H1; auto. }
          unfold f. destruct es; auto.
          destruct (validate_same (snd e) (tb (fst e) s)) as (E1 & E2 & E3).
          destruct H2 as [H2 H3]. split. rewrite E1; auto. rewrite E2, E3. exact H3.
        + exfalso. rewrite Hctr in Hc by lia. apply (Hle m); auto. lia. }
    specialize (H epochs [] (mkTrain p0 0%Z None 0%Z None) eq_refl).
    destruct H as [H _]. { split; simpl; auto. } exact H.
  Qed.

  (** One epoch: exactly up to the end of the first streak. *)
  Lemma fit_first_streak es l v p0 m :
    (1 <= n)%Z -> streak tol (Z.to_nat n) (losses step p0 l) m ->
    (forall m', (m' < m)%nat -> ~ streak tol (Z.to_nat n) (losses step p0 l) m') ->
    ts_params (fit_loop step vloss tol n es [(l, v)] p0) = trained step p0 (firstn (S m) l).
  Proof.
    intros Hn Hs Hmin. unfold fit_loop. cbn [fold_left fst snd].
    set (s0 := mkTrain p0 0%Z None 0%Z None).
    assert (Hp : ts_params (tb l s0) = trained step p0 (firstn (S m) l)).
    { assert (Hm : (m < length l)%nat) by (destruct Hs as [Hs _]; rewrite losses_length in Hs; lia).
      assert (Hcm : (n <= Z.of_nat (ctr (losses step p0 l) m))%Z).
      { apply ctr_streak in Hs. lia. rewrite losses_length; auto. }
      destruct (train_run p0 [] l s0 Hn) as [[_ H]|(m' & Hm' & Hc & Hf & He)].
      - split; simpl; auto.
      - exfalso. apply (H m); simpl; auto. lia.
      - simpl in *. assert (m' = m); [|subst; auto].
        destruct (Nat.lt_trichotomy m' m) as [H|[H|H]]; auto.
        + exfalso. apply (Hmin m' H). apply ctr_streak. rewrite losses_length; lia. lia.
        + exfalso. apply (Hf m); auto. lia. }
    destruct es; auto. destruct (validate_same v (tb l s0)) as (-> & _). exact Hp.
  Qed.

  (** Validation never changes the parameters. *)
  Lemma fit_validation epochs p0 es es' :
    ts_params (fit_loop step vloss tol n es epochs p0) = ts_params (fit_loop step vloss tol n es' epochs p0).
  Proof.
    assert (H : forall epochs (s s' : train_state P), same_training s s' ->
      same_training (fold_left (fun s e => let s' := tb (fst e) s in if es then vb (snd e) s' else s') epochs s)
                    (fold_left (fun s e => let s' := tb (fst e) s in if es' then vb (snd e) s' else s') epochs s')).
    { induction epochs0 as [|e ep IH]; intros s s' Hs; simpl; auto. apply IH.
      pose proof (train_batches_congr (fst e) s s' Hs) as (H1 & H2 & H3).
      pose proof (validate_same (snd e) (tb (fst e) s)) as (H4 & H5 & H6).
      pose proof (validate_same (snd e) (tb (fst e) s')) as (H7 & H8 & H9).
      destruct es, es'; repeat split; congruence. }
    unfold fit_loop. apply H. auto.
  Qed.

  Lemma fit_prefixes es epochs p0 : exists d, Forall2 (fun d e => is_prefix d (fst e) /\ (fst e <> [] -> d <> [])) d epochs /\
    ts_params (fit_loop step vloss tol n es epochs p0) = trained step p0 (concat d).
  Proof.
    unfold fit_loop. change p0 with (ts_params (mkTrain p0 0%Z None 0%Z None)) at 2.
    generalize (mkTrain p0 0%Z None 0%Z None). induction epochs as [|e ep IH]; intros s.
    - exists []. split; auto.
    - simpl. destruct (prefix_of_epoch (fst e) s) as (d & H1 & H2 & H3).
      destruct (IH (if es then vb (snd e) (tb (fst e) s) else tb (fst e) s)) as (ds & H4 & H5).
      exists (d :: ds). split. constructor; auto. rewrite H5. simpl. rewrite trained_app.
      f_equal. rewrite <- H3. destruct es; auto. apply (validate_same (snd e) (tb (fst e) s)).
  Qed.

  (** ** Losses that never rise *)
  Variable t : R.
  Hypothesis Htol : tol = Fin t.
  Hypothesis Ht : 0 < t.
  Hypothesis Hn : (1 <= n)%Z.
  Hypothesis Hmono : forall p b b', exists x y,
    snd (step p b) = Fin x /\ snd (step (fst (step p b)) b') = Fin y /\ y <= x.

  (** Every batch would now give a loss of at most [x]. *)
  Definition below (p : P) (x : R) : Prop := forall b, exists y, snd (step p b) = Fin y /\ y <= x.

  Lemma below_step p b x : below p x -> exists y, snd (step p b) = Fin y /\ y <= x /\ below (fst (step p b)) y.
  Proof.
    intros H. destruct (H b) as (y & E & Hy). exists y. split; auto. split; auto. intros b'.
    destruct (Hmono p b b') as (x1 & y1 & E1 & E2 & H3). exists y1. split; auto.
    assert (x1 = y) by congruence. subst; auto.
  Qed.

  Definition improving_inv (left : nat) (s : train_state P) : Prop :=
    match left with
    | O => (n <= ts_counter s)%Z /\ exists x, ts_previous s = Some (Fin x) /\ below (ts_params s) x
    | S k => (left = S (Z.to_nat n) /\ ts_counter s = 0%Z /\ ts_previous s = None) \/
             (ts_counter s = n - Z.of_nat left /\ (0 <= ts_counter s)%Z /\
              exists x, ts_previous s = Some (Fin x) /\ below (ts_params s) x)%Z
    end.

  Lemma no_rise_counts x y c : y <= x -> not_improving tol (Fin y) c (Some (Fin x)) = (c + 1)%Z.
  Proof.
    intros H. unfold not_improving. rewrite Htol. cbn [nsub nopp nadd nlt].
    replace (Rltb (y + - x) t) with true; auto. symmetry. apply Rltb_true. lra.
  Qed.

  Lemma improving_epoch l left s : improving_inv left s ->
    improving_inv (left - length l) (tb l s) /\
    ts_params (tb l s) = trained step (ts_params s) (firstn (match left with O => 1 | _ => left end) l).
  Proof.
    revert left s; induction l as [|b r IH]; intros left s Hi.
    - simpl. rewrite Nat.sub_0_r. split; auto. destruct left; auto.
    - simpl tb. destruct (step (ts_params s) b) as [p x] eqn:E.
      assert (Ep : p = fst (step (ts_params s) b)) by (rewrite E; auto).
      assert (Ex : x = snd (step (ts_params s) b)) by (rewrite E; auto).
      destruct left as [|k].
      + destruct Hi as (Hc & z & Hz & Hb). destruct (below_step _ b z Hb) as (y & Ey & Hy & Hb').
        rewrite Ex, Ey, Hz, no_rise_counts by auto.
        replace (Z.leb n (ts_counter s + 1)) with true by (symmetry; apply Z.leb_le; lia).
        split. { split. simpl; lia. exists z. split; auto. simpl. rewrite Ep. intros b'.
          destruct (Hb' b') as (u & Hu & Hle). exists u. split; auto. lra. }
        simpl. rewrite E. reflexivity.
      + destruct Hi as [(Hl & Hc & Hp)|(Hc & Hc0 & z & Hz & Hb)].
        * rewrite Hc, Hp. cbn [not_improving].
          replace (Z.leb n 0) with false by (symmetry; apply Z.leb_gt; lia).
          assert (Hk : k = Z.to_nat n) by lia.
          edestruct (IH k (mkTrain p 0%Z (Some x) (ts_vcounter s) (ts_vprevious s))) as [H1 H2].
          { destruct (Hmono (ts_params s) b b) as (x1 & y1 & E1 & _ & _).
            destruct k as [|k]; [lia|]. right. simpl. split; [lia|]. split; [lia|]. exists x1.
            rewrite Ex, E1. split; auto. rewrite Ep. intros b'.
            destruct (Hmono (ts_params s) b b') as (x2 & y2 & E2 & E3 & H3). exists y2. split; auto.
            assert (x1 = x2) by congruence. subst; auto. }
          split; [exact H1|]. rewrite H2. simpl. rewrite E. simpl. destruct k; [lia|]. reflexivity.
        * destruct (below_step _ b z Hb) as (y & Ey & Hy & Hb').
          rewrite Ex, Ey, Hz, no_rise_counts by auto.
          destruct k as [|k].
          -- replace (Z.leb n (ts_counter s + 1)) with true by (symmetry; apply Z.leb_le; lia).
             split. { simpl Nat.sub. split. simpl; lia. exists z. split; auto. simpl. rewrite Ep. intros b'.
               destruct (Hb' b') as (u & Hu & Hle). exists u. split; auto. lra. }
             simpl. rewrite E. reflexivity.
          -- replace (Z.leb n (ts_counter s + 1)) with false by (symmetry; apply Z.leb_gt; lia).
             edestruct (IH (S k) (mkTrain p (ts_counter s + 1)%Z (Some (Fin y)) (ts_vcounter s) (ts_vprevious s)))
               as [H1 H2].
             { right. simpl. split; [lia|]. split; [lia|]. exists y. split; auto. rewrite Ep; auto. }
             split; [exact H1|]. rewrite H2. simpl. rewrite E. reflexivity.
  Qed.

  Lemma improving_fit es epochs p0 :
    ts_params (fit_loop step vloss tol n es epochs p0) =
    trained step p0 (then_one_each (S (Z.to_nat n)) (map fst epochs)).
  Proof.
    unfold fit_loop. change p0 with (ts_params (mkTrain p0 0%Z None 0%Z None)) at 2.
    assert (H0 : improving_inv (S (Z.to_nat n)) (mkTrain p0 0%Z None 0%Z None)) by (left; auto).
    revert H0. generalize (S (Z.to_nat n)), (mkTrain p0 0%Z None 0%Z None).
    induction epochs as [|e ep IH]; intros left s Hi; auto.
    simpl. destruct (improving_epoch (fst e) left s Hi) as [H1 H2].
    destruct (validate_same (snd e) (tb (fst e) s)) as (V1 & V2 & V3).
    assert (Hi' : improving_inv (left - length (fst e)) (if es then vb (snd e) (tb (fst e) s) else tb (fst e) s)).
    { destruct es; auto. revert H1. unfold improving_inv. rewrite V1, V2, V3. auto. }
    rewrite (IH _ _ Hi').
    replace (ts_params (if es then vb (snd e) (tb (fst e) s) else tb (fst e) s)) with (ts_params (tb (fst e) s))
      by (destruct es; auto).
    rewrite H2. destruct left; rewrite trained_app; auto.
  Qed.
End Training.
