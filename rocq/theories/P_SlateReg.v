(** * P_SlateReg: the slate reward model (C101). *)

From Coq Require Import Reals List ZArith Lia Lra Bool.
From Verif Require Import Num NpList M_Utils M_Slate M_Offline M_Reg S_Base S_Slate S_Reg S_SlateReg L_Num L_Base L_Utils L_Slate L_Multi L_Policy L_Offline L_Reg L_SlateReg.
Import ListNotations.
Open Scope R_scope.

Section SlateReg.
Context {M : Type}.
Variable rfit : M -> list (list num) -> list num -> list num -> res M.
Variable rpred : M -> list (list num) -> res (list num).
Variable train : list (list num) -> list R -> list R -> M.
Variable f : M -> list num -> R.
Hypothesis HP : plain_regressor rfit rpred train f.

(** ** Fitting is a backward recursion *)

(** [fit] trains one model per position, the last first: the rows are the context and the actions up to the position,
    the target is the reward plus the evaluation policy's average of the next position's (already trained) model, and
    the weights are ones or the ratios of the joint propensities. *)
Theorem C101_recursion : forall K L l iw models, slog_ok K L l -> length models = L ->
  exists md : nat -> M,
    slate_fit rfit rpred iw K L models (tab (sg_n l) (sg_x l)) (flat (sg_n l) L (fun i p => Z.of_nat (sg_a l i p)))
      (flat (sg_n l) L (fun i p => Fin (sg_r l i p))) (flat (sg_n l) L (fun i p => Fin (sg_p l i p)))
      (flat (sg_n l) L (fun i p => Fin (sg_pe l i p))) (flat3 (sg_n l) L K (fun i p a => Fin (sg_pi l i p a))) = Ok (tab L md) /\
    forall p, (p < L)%nat ->
      md p = train (tab (sg_n l) (fun i => prefix_row (sg_x l i) (before l i (S p))))
                   (tab (sg_n l) (target f K L l md p)) (tab (sg_n l) (slate_weight iw l p)).
Proof.
  intros K L l iw models Hl Hm. set (n := sg_n l).
  set (X := fun p => tab n (fun i => prefix_row (sg_x l i) (before l i (S p)))).
  pose proof (go_L _ _ _ Hl) as HL. pose proof (go_n _ _ _ Hl) as Hn. fold n in Hn. destruct HP as [Hfit Hpr].
  assert (m0 : M) by (destruct models as [|m ?]; [simpl in Hm; lia|exact m]).
  set (one := fun m p => train (X p) (tab n (target f K L l (fun _ => m) p)) (tab n (slate_weight iw l p))).
  set (g := fix g k := one (match k with O => m0 | S k' => g k' end) (L - 1 - k)%nat).
  set (md := fun p => g (L - 1 - p)%nat).
  assert (E : forall p, (p < L)%nat -> md p = train (X p) (tab n (target f K L l md p)) (tab n (slate_weight iw l p))).
  { intros p Hp. unfold md at 1. destruct (L - 1 - p)%nat as [|k] eqn:Ek.
    - cbn [g]. unfold one. replace (L - 1 - 0)%nat with p by lia. f_equal. apply tab_ext. intros i _. unfold target.
      replace (Nat.eqb (S p) L) with true by (symmetry; apply Nat.eqb_eq; lia). reflexivity.
    - cbn [g]. unfold one. replace (L - 1 - S k)%nat with p by lia. f_equal. apply tab_ext. intros i _. unfold target.
      replace (md (S p)) with (g k) by (unfold md; f_equal; lia). reflexivity. }
  exists md. split; [|exact E]. unfold slate_fit. subst n. rewrite (slate_check_ok K L l Hl). cbn [bind]. rewrite !reshape_flat by auto. cbn [bind].
  rewrite bcast2_flat. cbn [bind]. rewrite reshape_flat by auto. cbn [bind].
  match goal with |- loopM ?F _ _ = _ => set (F0 := F) end.
  assert (LOOP : forall p ms, (p <= L)%nat -> length ms = L -> (forall q, (p <= q < L)%nat -> nth_error ms q = Some (md q)) ->
    loopM F0 (rev (seq 0 p)) ms = Ok (tab L md)).
  { induction p as [|p IH]; intros ms Hp Hlen Hms.
    - simpl. f_equal. apply nth_error_ext. intros q. destruct (Nat.lt_ge_cases q L).
      + rewrite Hms by lia. rewrite nth_error_tab by auto. reflexivity.
      + rewrite (proj2 (nth_error_None _ _)) by lia. symmetry. apply nth_error_None. rewrite tab_length. lia.
    - rewrite seq_S, rev_app_distr. cbn [rev app loopM Nat.add]. unfold F0 at 1.
      rewrite (targets_ok rfit rpred train f HP K L l Hl md p ltac:(lia)) by (intros; apply Hms; lia). cbn [bind fst snd].
      assert (SW : (if iw then mapM (fun row => np_get row (Z.of_nat p)) (tab (sg_n l) (fun i => tab L (fun p => ndiv (Fin (sg_pe l i p)) (Fin (sg_p l i p)))))
              else Ok (repeat (Fin 1) (length (tab (sg_n l) (fun i => tab L (fun p => Z.of_nat (sg_a l i p))))))) = Ok (map Fin (tab (sg_n l) (slate_weight iw l p)))).
      { unfold slate_weight. rewrite map_tab. destruct iw.
        - apply mapM_tab. intros i Hi. rewrite (np_get_tab L (fun p => ndiv (Fin (sg_pe l i p)) (Fin (sg_p l i p)))) by lia. f_equal.
          apply ndiv_Fin. pose proof (go_p _ _ _ Hl i p Hi ltac:(lia)). lra.
        - rewrite tab_length, repeat_tab. reflexivity. }
      rewrite SW. cbn [bind]. unfold nth_model.
      destruct (nth_error ms p) as [m|] eqn:Em; [|apply nth_error_None in Em; lia]. cbn [bind].
      change (tabF (sg_n l) (target f K L l md p)) with (tab (sg_n l) (fun i => Fin (target f K L l md p i))). rewrite <- (map_tab (sg_n l) (target f K L l md p) Fin).
      rewrite Hfit. cbn [bind]. fold (X p). rewrite <- E by lia. apply IH; [lia|rewrite set_nth_length; auto|].
      intros q Hq. destruct (Nat.eq_dec q p) as [->|].
      + apply nth_error_set_same. lia.
      + rewrite nth_error_set_other by auto. apply Hms. lia. }
  apply LOOP; auto. intros; lia.
Qed.

(** ** Prediction *)

(** [predict] returns, round by round and position by position, for every action the position's model at the round's
    logged earlier actions followed by that action. *)
Theorem C101_predict : forall K L l (md : nat -> M), slog_ok K L l ->
  slate_predict rpred K L (tab L md) (tab (sg_n l) (sg_x l)) (flat (sg_n l) L (fun i p => Z.of_nat (sg_a l i p))) =
  Ok (flat3 (sg_n l) L K (fun i p b => Fin (f (md p) (prefix_row (sg_x l i) (before l i p ++ [b]))))).
Proof.
  intros K L l md Hl. pose proof (go_L _ _ _ Hl) as HL. pose proof (K_pos K L l Hl) as HK. destruct HP as [Hfit Hpr].
  unfold slate_predict. rewrite flat_length, tab_length, Nat.eqb_refl. cbn [negb raise_if bind]. rewrite reshape_flat by auto. cbn [bind].
  set (blk := fun p => tab (sg_n l) (fun i => tab K (fun b => Fin (f (md p) (prefix_row (sg_x l i) (before l i p ++ [b])))))).
  rewrite (mapM_ext _ (fun p => Ok (blk p))).
  2:{ intros p Hp. apply in_rev, in_seq in Hp. unfold nth_model. rewrite nth_error_tab by lia. cbn [bind].
      replace (map (firstn p) (tab (sg_n l) (fun i => tab L (fun p0 => Z.of_nat (sg_a l i p0))))) with (tab (sg_n l) (fun i => tab p (fun p => Z.of_nat (sg_a l i p)))).
      2:{ rewrite map_tab. apply tab_ext. intros i _. symmetry. apply firstn_tab. lia. }
      rewrite candidates, Hpr. cbn [bind].
      change (concat (tab (sg_n l) (fun i => tab K (fun b => prefix_row (sg_x l i) (tab p (sg_a l i) ++ [b]))))) with
        (flat (sg_n l) K (fun i b => prefix_row (sg_x l i) (before l i p ++ [b]))). rewrite map_flat, reshape_flat by auto. cbn [bind].
      rewrite tab_length, Nat.eqb_refl. reflexivity. }
  rewrite (mapM_Ok _ blk) by auto. cbn [bind]. f_equal. rewrite map_rev, rev_involutive, flat_map_concat_map. unfold flat3. f_equal.
  change (map ?h (seq 0 (sg_n l))) with (tab (sg_n l) h). apply tab_ext. intros i Hi. rewrite flat_map_concat_map, map_map. f_equal.
  change (map ?h (seq 0 L)) with (tab L h). apply tab_ext. intros p _. unfold blk. rewrite nth_tab by auto. reflexivity.
Qed.

(** ** What the recursion computes *)

(** Noise-free rewards, every action tried after every logged prefix, and a regressor that reproduces targets that are a
    function of the row: [fit_predict] returns for every round, position and action the exact value of continuing from
    there with the evaluation policy. *)
Theorem C101_exact : forall K L d l e iw models, slog_ok K L l -> length models = L ->
  interpolates train f -> log_from L d e l -> all_continuations K L l ->
  exists md, slate_fit_predict rfit rpred iw K L models (tab (sg_n l) (sg_x l)) (flat (sg_n l) L (fun i p => Z.of_nat (sg_a l i p)))
      (flat (sg_n l) L (fun i p => Fin (sg_r l i p))) (flat (sg_n l) L (fun i p => Fin (sg_p l i p)))
      (flat (sg_n l) L (fun i p => Fin (sg_pe l i p))) (flat3 (sg_n l) L K (fun i p a => Fin (sg_pi l i p a))) =
    Ok (tab L md, flat3 (sg_n l) L K (fun i p b => Fin (prefix_value K e (L - 1 - p) (sg_x l i) (before l i p ++ [b])))).
Proof.
  intros K L d l e iw models Hl Hm HI (Hd & Hr & Hpi) HA. pose proof (go_L _ _ _ Hl) as HL.
  destruct (C101_recursion K L l iw models Hl Hm) as (md & E & Hmd). exists md. unfold slate_fit_predict. rewrite E. cbn [bind].
  rewrite (C101_predict K L l md Hl). cbn [bind]. do 2 f_equal. unfold flat3. f_equal. apply tab_ext. intros i Hi. f_equal. apply tab_ext. intros p Hp.
  apply tab_ext. intros b Hb. f_equal. revert i p Hi Hp b Hb.
  (* a function of the row *)
  set (dec := fun (p : nat) (row : list num) => prefix_value K e (L - 1 - p) (firstn d row)
                (map (fun v => match v with Fin r => Z.to_nat (Int_part r) | _ => O end) (skipn d row))).
  assert (DEC : forall i p pre, (i < sg_n l)%nat -> dec p (prefix_row (sg_x l i) pre) = prefix_value K e (L - 1 - p) (sg_x l i) pre).
  { intros i p pre Hi. unfold dec, prefix_row. rewrite <- (Hd i Hi). rewrite firstn_app, Nat.sub_diag, firstn_all, skipn_app, Nat.sub_diag, skipn_all.
    cbn [firstn skipn]. rewrite app_nil_r. cbn [app]. f_equal. rewrite map_map. rewrite <- (map_id pre) at 2. apply map_ext. intros a.
    rewrite Int_part_INR. apply Nat2Z.id. }
  assert (MAIN : forall k i p b, (L - 1 - p = k)%nat -> (i < sg_n l)%nat -> (p < L)%nat -> (b < K)%nat ->
    f (md p) (prefix_row (sg_x l i) (before l i p ++ [b])) = prefix_value K e (L - 1 - p) (sg_x l i) (before l i p ++ [b])).
  { induction k as [|k IH]; intros i p b Hk Hi Hp Hb; rewrite Hmd by auto.
    all: replace (tab (sg_n l) (target f K L l md p)) with (map (dec p) (tab (sg_n l) (fun i => prefix_row (sg_x l i) (before l i (S p))))).
    1, 3: rewrite HI; [apply DEC; auto| | |].
    1, 4: intros v Hv; apply In_tab in Hv as (j & Hj & <-); unfold slate_weight; destruct iw; [|lra];
      apply Rdiv_lt_0_compat; [apply (go_pe _ _ _ Hl)|apply (go_p _ _ _ Hl)]; auto.
    1, 3: rewrite !tab_length; auto.
    1, 2: destruct (HA i p b Hi Hp Hb) as (j & Hj & Ex & Eb & Ea); apply In_tab; exists j; split; auto; rewrite Ex; f_equal;
      unfold before in *; rewrite tab_S, Eb, Ea; reflexivity.
    - rewrite map_tab. apply tab_ext. intros j Hj. rewrite DEC by auto. unfold target. rewrite Hk.
      replace (Nat.eqb (S p) L) with true by (symmetry; apply Nat.eqb_eq; lia). cbn [prefix_value]. rewrite (Hr j p) by auto. reflexivity.
    - rewrite map_tab. apply tab_ext. intros j Hj. rewrite DEC by auto. unfold target. rewrite Hk.
      replace (Nat.eqb (S p) L) with false by (symmetry; apply Nat.eqb_neq; lia). cbn [prefix_value]. rewrite (Hr j p) by auto. f_equal.
      apply sumn_ext. intros a Ha. rewrite (Hpi j (S p)) by lia. rewrite IH by lia. replace (L - 1 - S p)%nat with k by lia. reflexivity. }
  intros i p Hi Hp b Hb. eapply MAIN; eauto.
Qed.
End SlateReg.

(** ** Validation *)

(** [fit] accepts exactly these arrays and raises ValueError on all others. *)
Theorem C101_fit_checks : forall {M} (rfit : M -> list (list num) -> list num -> list num -> res M) rpred iw K L models context action reward pscore epscore dist,
  (slate_fit_inputs K L (length context) action reward pscore epscore dist ->
     slate_check K L context action reward pscore epscore dist = Ok tt) /\
  (~ slate_fit_inputs K L (length context) action reward pscore epscore dist ->
     slate_fit rfit rpred iw K L models context action reward pscore epscore dist = Err ValueError).
Proof.
  intros. set (n := length context).
  assert (D : decides (slate_check K L context action reward pscore epscore dist) (slate_fit_inputs K L n action reward pscore epscore dist)).
  { unfold slate_check. fold n.
    generalize (zminl_spec action) (zmaxl_spec action). destruct (zminl action) as [mn|e]; simpl.
    2:{ intros [-> ->] _. right. split.
        - destruct (Nat.eqb (length (@nil Z)) (n * L) && _ && _ && _)%bool; [|reflexivity]. simpl. destruct (Nat.eqb (length dist) (n * L * K)); reflexivity.
        - intros [H1 H2 _ _ _ _ _ _ _ _]. simpl in H2. lia. }
    destruct (zmaxl action) as [mx|e]; simpl; [|intros (H & _) [H' _]; congruence].
    intros (Hne & Hmin & Hle) (_ & Hmax & Hge).
    eapply decides_iff.
    2:{ apply decides_seq; [apply decides_raise; apply iff_refl|intros HA].
        apply decides_seq; [apply decides_raise; apply iff_refl|intros HB].
        apply decides_seq; [apply decides_raise; apply iff_refl|intros H1].
        apply decides_seq; [apply decides_raise; apply iff_refl|intros H2].
        apply decides_seq; [apply decides_raise; apply existsb_false_forall|intros H3].
        apply decides_seq; [apply decides_raise; apply existsb_false_forall|intros H4].
        apply (decides_iff _ (forall j, (j < n * L)%nat -> exists v,
           fold_right nadd (Fin 0) (firstn K (skipn (j * K) dist)) = Fin v /\ Rabs (1 - v) <= 1 / 100000000 + 1 / 100000 * Rabs v)); [apply iff_refl|].
        apply negb_false_iff, Nat.eqb_eq in HB. apply Z.ltb_ge in H1. apply Z.leb_gt in H2. specialize (Hge _ Hmin).
        unfold reshape. replace (Nat.eqb K 0) with false by (symmetry; apply Nat.eqb_neq; lia). rewrite HB, Nat.mod_mul, Nat.div_mul by lia.
        cbn [negb Nat.eqb orb bind]. apply decides_raise. rewrite negb_false_iff. unfold allclose_ones. rewrite map_map.
        etransitivity; [apply (forallb_seq_map _ (fun i => nsum (firstn K (skipn (i * K) dist))))|]. split.
        - intros H j Hj. specialize (H j Hj). unfold nsum in H. destruct (fold_right _ _ _) as [v| | |]; try discriminate. exists v. split; auto.
          apply Rleb_true; exact H.
        - intros H j Hj. destruct (H j Hj) as (v & E & Hv). unfold nsum. rewrite E. apply Rleb_true. auto. }
    rewrite !negb_false_iff, !andb_true_iff, !Nat.eqb_eq, Z.ltb_ge, Z.leb_gt.
    assert (PP : forall q, Forall (fun x => (nle x (Fin 0) || nlt (Fin 1) x)%bool = false) q <->
       Forall (fun p => p = NaN \/ exists r, p = Fin r /\ 0 < r <= 1) q).
    { intros q. rewrite !Forall_forall. split; intros H x Hx; [apply (proj1 (pscore_ok x))|apply (proj2 (pscore_ok x))]; exact (H x Hx). }
    rewrite !PP. split.
    - intros ((((HA1 & HA2) & HA3) & HA4) & HB & H1 & H2 & H3 & H4 & H5). constructor; auto.
      + rewrite <- HA1. destruct action; [congruence|simpl; lia].
      + apply Forall_forall. intros a Ha. specialize (Hle a Ha). specialize (Hge a Ha). lia.
    - intros [G0 G1 G2 G3 G4 G5 G6 G7 G8 G9]. rewrite Forall_forall in G6. pose proof (G6 _ Hmin). pose proof (G6 _ Hmax).
      repeat split; auto; lia. }
  split; intros H.
  - apply (decides_Ok _ _ D H).
  - unfold slate_fit. destruct D as [[_ D]|[-> _]]; [contradiction|reflexivity].
Qed.

(** ** A concrete case *)

(** Lookup regressor: the target of the first training row equal to the query. *)
Definition look (m : list (list num * R)) (x : list num) : R :=
  match find (fun q => if list_eq_dec num_dec (fst q) x then true else false) m with Some q => snd q | None => 0 end.

Lemma look_interpolates : interpolates (fun X y w => combine X y) look.
Proof.
  intros X w g _ _ x. unfold look. induction X as [|z X IH]; intros Hx; [destruct Hx|]. cbn [map combine find fst].
  destruct (list_eq_dec num_dec z x) as [->|N]; [reflexivity|]. apply IH. destruct Hx; [contradiction|auto].
Qed.

Example C101_ex :
  let e := mkSenv (fun _ pre => INR (list_sum pre)) (fun _ _ b => match b with O => 1 / 4 | _ => 3 / 4 end) in
  let l := mkSlog 4 (fun _ => [Fin 7]) (fun i p => match p with O => Nat.div i 2 | _ => Nat.modulo i 2 end)
     (fun i p => match p with O => INR (Nat.div i 2) | _ => INR (Nat.div i 2) + INR (Nat.modulo i 2) end) (fun _ _ => 1 / 4) (fun _ _ => 1 / 8)
     (fun _ _ b => match b with O => 1 / 4 | _ => 3 / 4 end) in
  slog_ok 2 2 l /\ log_from 2 1 e l /\ all_continuations 2 2 l /\
  exists md, slate_fit_predict (fun (_ : list (list num * R)) X y _ => Ok (combine X (map (fun v => match v with Fin r => r | _ => 0 end) y)))
     (fun m X => Ok (map (fun x => Fin (look m x)) X)) true 2 2 [[]; []] (tab 4 (sg_x l)) (flat 4 2 (fun i p => Z.of_nat (sg_a l i p)))
      (flat 4 2 (fun i p => Fin (sg_r l i p))) (flat 4 2 (fun i p => Fin (sg_p l i p)))
      (flat 4 2 (fun i p => Fin (sg_pe l i p))) (flat3 4 2 2 (fun i p a => Fin (sg_pi l i p a))) =
    Ok (tab 2 md, flat3 4 2 2 (fun i p b => Fin (match p with O => 2 * INR b + 3 / 4 | _ => INR (Nat.div i 2) + INR b end))).
Proof.
  intros e l.
  assert (D : forall i, (i < 4)%nat -> (Nat.div i 2 < 2)%nat /\ (Nat.modulo i 2 < 2)%nat /\ i = (2 * Nat.div i 2 + Nat.modulo i 2)%nat).
  { intros i Hi. split; [apply Nat.div_lt_upper_bound; lia|]. split; [apply Nat.mod_upper_bound; lia|]. apply Nat.div_mod. lia. }
  assert (H1 : slog_ok 2 2 l).
  { split; cbn [l sg_n sg_a sg_p sg_pe sg_pi]; try lia; intros i p Hi Hp; try lra.
    - destruct (D i Hi) as (? & ? & _). destruct p; auto.
    - unfold sumn. simpl. lra. }
  assert (H2 : log_from 2 1 e l).
  { split; [reflexivity|]. split; [|reflexivity]. intros i p Hi Hp. destruct p as [|[|p]]; try lia; cbn [sg_r l e se_mean before tab seq map sg_a list_sum fold_right].
    all: unfold before, tab; cbn [seq map sg_a l list_sum fold_right]; rewrite ?plus_INR; simpl INR; lra. }
  assert (H3 : all_continuations 2 2 l).
  { intros i p b Hi Hp Hb. destruct (D i Hi) as (D1 & D2 & D3). destruct p as [|[|p]]; try lia; cbn [l sg_n sg_a sg_x] in *.
    - exists (2 * b)%nat. split; [lia|]. split; [reflexivity|]. split; [reflexivity|]. rewrite Nat.mul_comm. apply Nat.div_mul. lia.
    - exists (2 * Nat.div i 2 + b)%nat. split; [lia|]. split; [reflexivity|]. split.
      + unfold before, tab. cbn [seq map sg_a l]. f_equal. replace (2 * Nat.div i 2 + b)%nat with (b + Nat.div i 2 * 2)%nat by lia.
        rewrite Nat.div_add by lia. rewrite Nat.div_small by lia. reflexivity.
      + replace (2 * Nat.div i 2 + b)%nat with (b + Nat.div i 2 * 2)%nat by lia. rewrite Nat.mod_add by lia. apply Nat.mod_small. auto. }
  split; [auto|]. split; [auto|]. split; [auto|].
  assert (HP : plain_regressor (fun (_ : list (list num * R)) X y _ => Ok (combine X (map (fun v => match v with Fin r => r | _ => 0 end) y)))
     (fun m X => Ok (map (fun x => Fin (look m x)) X)) (fun X y (w : list R) => combine X y) look).
  { split; [|reflexivity]. intros. rewrite map_map, map_id. reflexivity. }
  destruct (C101_exact _ _ _ _ HP 2 2 1 l e true [[]; []] H1 eq_refl look_interpolates H2 H3) as (md & E). exists md.
  etransitivity; [exact E|]. do 2 f_equal. unfold flat3. f_equal. apply tab_ext. intros i Hi. f_equal. apply tab_ext. intros p Hp. apply tab_ext. intros b Hb. f_equal.
  destruct p as [|[|p]]; try lia; unfold before, tab; cbn [seq map sg_a l app Nat.sub prefix_value e se_mean se_pol sg_x list_sum fold_right].
  - cbn [sumn]. rewrite ?plus_INR. simpl INR. lra.
  - rewrite !plus_INR. simpl INR. lra.
Qed.

Print Assumptions C101_recursion.
Print Assumptions C101_predict.
Print Assumptions C101_exact.
Print Assumptions C101_fit_checks.
