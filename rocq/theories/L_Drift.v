(** * L_Drift: lemmas for the coefficient drifter. *)

From Coq Require Import Reals List ZArith Lia Lra Bool.
From Verif Require Import Num NpList M_Drift S_Base S_Drift L_Num L_Base L_SlateEst.
Import ListNotations.
Open Scope R_scope.

Lemma nth_skipn {A} k : forall (l : list A) i d, nth i (skipn k l) d = nth (k + i) l d.
Proof. induction k; intros [|x l] i d; simpl; auto. destruct i; reflexivity. Qed.

Lemma steps_tab av T r : (r <= av)%nat -> transition_steps av T r = tab r (fun i => (i + 1 + T - r)%nat).
Proof.
  intros H. unfold transition_steps.
  assert (L : length (if Nat.leb T av then repeat 0%nat (av - T) ++ seq 1 T else skipn (T - av) (seq 1 T)) = av).
  { destruct (Nat.leb_spec T av). rewrite app_length, repeat_length, seq_length. lia. rewrite skipn_length, seq_length. lia. }
  rewrite (list_tab (skipn _ _) 0%nat), skipn_length, L. replace (av - (av - r))%nat with r by lia.
  apply tab_ext. intros i Hi. rewrite nth_skipn. destruct (Nat.leb_spec T av) as [H1|H1].
  - destruct (Nat.lt_ge_cases (av - r + i) (av - T)).
    + rewrite app_nth1 by (rewrite repeat_length; lia). rewrite nth_repeat. lia.
    + rewrite app_nth2 by (rewrite repeat_length; lia). rewrite repeat_length, seq_nth by lia. lia.
  - rewrite nth_skipn, seq_nth by lia. lia.
Qed.

Section Run.
Context {G : Type}.
Variable sample : nat -> nat -> G -> G * coef.
Variable binom : G -> list R -> G * list R.
Variables (I T : nat) (seasonal : bool) (w : R) (da dc : nat) (g : G).
Hypothesis HI : (1 <= I)%nat.

Definition cset (k : nat) : coef := sampled (sample da dc) g (phase seasonal k).
Definition at_round (k pos : nat) : drifter G :=
  mkDrifter I T false seasonal w (Some da) (Some dc) (I - pos) [cset k; cset (S k)] (Some (cset 0))
    (generator (sample da dc) g (if seasonal then 2 else k + 2)).

Lemma update_at k pos : update_coef sample (at_round k pos) = (set_available (at_round (S k) 0) (I - pos), Ok tt).
Proof.
  unfold update_coef, at_round. cbn [dr_base dr_coefs dr_rng dr_seasonal length Nat.eqb andb].
  assert (HS : seasonal = true -> cset (S (S k)) = cset k).
  { intros H. unfold cset, phase. rewrite H. replace (S (S k)) with (k + 1 * 2)%nat by lia. rewrite Nat.mod_add by lia. reflexivity. }
  assert (HN : seasonal = false -> forall j, cset j = sampled (sample da dc) g j) by (intros H j; unfold cset, phase; rewrite H; reflexivity).
  destruct (bool_dec seasonal true) as [E|E].
  - rewrite HS by auto. rewrite E. cbn. unfold set_coefs, set_available. cbn. reflexivity.
  - apply not_true_is_false in E. specialize (HN E). rewrite !HN. rewrite E. unfold sample_dims. cbn [andb dr_dim_action dr_dim_context].
    destruct (sample da dc (generator (sample da dc) g (k + 2))) as [g2 c] eqn:F.
    unfold set_coefs, set_available, dq_append. cbn. replace (k + 2)%nat with (S (S k)) in * by lia.
    unfold sampled. cbn [generator] in *. rewrite F. reflexivity.
Qed.

Lemma append_at k pos r : (pos < I)%nat -> (r <= I - pos)%nat ->
  append_current_coefs binom (at_round k pos) r =
  Ok (at_round k pos, tab r (fun i => mix_coef w (cset 0) (cset k) (cset (S k)) (transition_weight I T (I - r + i)))).
Proof.
  intros Hp Hr. unfold append_current_coefs, at_round. cbn [dr_available dr_transition dr_weighted dr_rng dr_coefs dr_base fst snd dr_base_weight].
  rewrite steps_tab by lia. rewrite map_tab, map_tab. f_equal. f_equal. apply tab_ext. intros i Hi. unfold transition_weight. do 3 f_equal. lia.
Qed.

Definition row_at (k pos n i : nat) : coef :=
  mix_coef w (cset 0) (cset (k + (pos + i) / I)) (cset (S (k + (pos + i) / I)))
    (if Nat.ltb ((pos + i) / I) ((pos + n) / I) then transition_weight I T ((pos + i) mod I)
     else transition_weight I T (I - (pos + n) mod I + (pos + i) mod I)).

Lemma loop_at : forall n fuel k pos acc, (n <= fuel)%nat -> (pos < I)%nat ->
  drift_loop sample binom fuel (at_round k pos) n acc =
  Some (at_round (k + (pos + n) / I) ((pos + n) mod I), Ok (acc ++ tab n (row_at k pos n))).
Proof.
  induction n as [n IH] using (well_founded_induction Wf_nat.lt_wf). intros fuel k pos acc Hf Hp.
  destruct n as [|n].
  - destruct fuel; cbn [drift_loop]; rewrite Nat.add_0_r, Nat.div_small, Nat.mod_small, Nat.add_0_r, app_nil_r by auto; reflexivity.
  - destruct fuel as [|fuel]; [lia|]. cbn [drift_loop]. set (N := S n) in *.
    change (dr_available (at_round k pos)) with (I - pos)%nat. change (dr_interval (at_round k pos)) with I.
    destruct (Nat.leb_spec (I - pos) N) as [H|H].
    + rewrite append_at by lia. rewrite update_at. cbn [fst snd].
      assert (E : set_available (set_available (at_round (S k) 0) (I - pos)) I = at_round (S k) 0).
      { unfold at_round, set_available. cbn. rewrite Nat.sub_0_r. reflexivity. }
      rewrite E. rewrite IH by lia.
      assert (Q : (pos + N = (N - (I - pos)) + 1 * I)%nat) by lia.
      replace ((pos + N) / I)%nat with ((0 + (N - (I - pos))) / I + 1)%nat by (rewrite Q, Nat.div_add by lia; f_equal; lia).
      replace ((pos + N) mod I)%nat with ((0 + (N - (I - pos))) mod I)%nat by (rewrite Q, Nat.mod_add by lia; f_equal; lia).
      f_equal. f_equal. f_equal; lia. f_equal. rewrite <- app_assoc. f_equal.
      transitivity (tab ((I - pos) + (N - (I - pos))) (row_at k pos N)); [|f_equal; lia]. rewrite tab_app. f_equal.
      * apply tab_ext. intros i Hi. unfold row_at.
        assert (D1 : ((pos + i) / I = 0)%nat) by (apply Nat.div_small; lia).
        assert (D2 : ((pos + N) / I >= 1)%nat) by (rewrite Q, Nat.div_add by lia; lia).
        rewrite D1, Nat.add_0_r. destruct (Nat.ltb_spec 0 ((pos + N) / I)); [|lia]. rewrite Nat.mod_small by lia. do 2 f_equal. lia.
      * apply tab_ext. intros i Hi. unfold row_at.
        assert (P1 : (pos + (I - pos + i) = i + 1 * I)%nat) by lia.
        rewrite P1, Q, !Nat.div_add, !Nat.mod_add by lia. rewrite !Nat.add_0_l.
        replace (k + (i / I + 1))%nat with (S k + i / I)%nat by lia. f_equal.
        destruct (Nat.ltb_spec (i / I) ((N - (I - pos)) / I)); destruct (Nat.ltb_spec (i / I + 1) ((N - (I - pos)) / I + 1)); try lia; reflexivity.
    + rewrite append_at by lia.
      assert (E : set_available (at_round k pos) (I - pos - N) = at_round k (pos + N)).
      { unfold at_round, set_available. cbn. f_equal. lia. }
      rewrite E. assert (D : ((pos + N) / I = 0)%nat) by (apply Nat.div_small; lia).
      assert (M : ((pos + N) mod I = pos + N)%nat) by (apply Nat.mod_small; lia). rewrite D, M, Nat.add_0_r.
      assert (Fin0 : drift_loop sample binom fuel (at_round k (pos + N)) 0 (acc ++ tab N (fun i => mix_coef w (cset 0) (cset k) (cset (S k)) (transition_weight I T (I - N + i)))) =
         Some (at_round k (pos + N), Ok (acc ++ tab N (fun i => mix_coef w (cset 0) (cset k) (cset (S k)) (transition_weight I T (I - N + i)))))) by (destruct fuel; reflexivity).
      rewrite Fin0. do 4 f_equal. apply tab_ext. intros i Hi. unfold row_at.
      assert (D1 : ((pos + i) / I = 0)%nat) by (apply Nat.div_small; lia). rewrite D1, D, M, Nat.add_0_r.
      destruct (Nat.ltb_spec 0 0); [lia|]. rewrite Nat.mod_small by lia. do 2 f_equal. lia.
Qed.

Lemma get_at N n fuel : (1 <= n)%nat -> (n <= fuel)%nat ->
  get_coefficients sample binom fuel (at_round (N / I) (N mod I)) n None None =
  Some (at_round ((N + n) / I) ((N + n) mod I), Ok (tab n (served_row I T w cset N n))).
Proof.
  intros Hn Hf. unfold get_coefficients. cbn [is_set andb]. change (dr_coefs (at_round (N / I) (N mod I))) with [cset (N / I); cset (S (N / I))].
  cbn [snd fst]. rewrite loop_at by (auto; apply Nat.mod_upper_bound; lia). cbn [app].
  assert (E : forall x, ((N / I + (N mod I + x) / I) = (N + x) / I /\ (N mod I + x) mod I = (N + x) mod I)%nat).
  { intros x. pose proof (Nat.div_mod N I ltac:(lia)) as D. rewrite D at 3 5.
    replace (I * (N / I) + N mod I + x)%nat with (N mod I + x + (N / I) * I)%nat by lia. rewrite Nat.div_add, Nat.mod_add by lia. lia. }
  destruct (E n) as [E1 E2]. rewrite E1, E2.
  assert (R : tab n (row_at (N / I) (N mod I) n) = tab n (served_row I T w cset N n)).
  { apply tab_ext. intros i Hi. unfold row_at, served_row, served_weight. destruct (E i) as [F1 F2]. rewrite F1, F2, E2. f_equal.
    rewrite <- F1, <- E1.
    destruct (Nat.ltb_spec ((N mod I + i) / I) ((N mod I + n) / I)); destruct (Nat.ltb_spec (N / I + (N mod I + i) / I) (N / I + (N mod I + n) / I)); try lia; reflexivity. }
  rewrite R. destruct n as [|n]; [lia|]. rewrite tab_S_first. reflexivity.
Qed.

Lemma serve_at fuel : forall requests N, (forall n, In n requests -> (1 <= n <= fuel)%nat) ->
  serve sample binom fuel (at_round (N / I) (N mod I)) requests = Some (Ok (served I T w cset N requests)).
Proof.
  induction requests as [|n l IH]; intros N H; cbn [serve served]; auto.
  rewrite get_at by (apply H; left; auto). rewrite IH by (intros; apply H; right; auto). reflexivity.
Qed.

Lemma new_at : (1 <= da)%nat -> (1 <= dc)%nat ->
  drifter_new sample I T false seasonal w (Some da) (Some dc) g = (at_round (0 / I) (0 mod I), Ok tt).
Proof.
  intros Ha Hc. destruct da as [|da'] eqn:Ea; [lia|]. destruct dc as [|dc'] eqn:Ec; [lia|]. rewrite <- Ea, <- Ec in *.
  unfold drifter_new. replace (is_set (Some da) && is_set (Some dc))%bool with true by (rewrite Ea, Ec; reflexivity).
  rewrite Nat.div_0_l, Nat.mod_0_l by lia. unfold update_coef. cbn [dr_base dr_rng]. unfold sample_dims. cbn [dr_dim_action dr_dim_context].
  unfold at_round, cset, phase, sampled. destruct (sample da dc g) as [g1 b] eqn:E1. cbn [dr_coefs length Nat.eqb andb dr_seasonal].
  rewrite andb_false_r. destruct (sample da dc g1) as [g2 c] eqn:E2. unfold set_coefs, dq_append. cbn. rewrite Nat.sub_0_r.
  destruct seasonal; cbn [generator Nat.modulo Nat.divmod]; cbn; rewrite ?E1; cbn; rewrite ?E2; reflexivity.
Qed.
End Run.
