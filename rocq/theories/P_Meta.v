(** * P_Meta: the evaluation front ends (C51, C52, C53, C105). *)

From Coq Require Import String Reals List ZArith Lia Lra Bool.
From Verif Require Import Num NpList M_Utils M_Slate M_Estimators M_Meta S_Base S_Slate S_Meta S_Estimators S_Examples
  L_Num L_Base L_Utils L_Slate L_Estimators L_Examples L_Meta P_Estimators.
Import ListNotations.
Open Scope R_scope.

Definition ci_ok (alpha : num) (n_boot : Z) : Prop := (exists r, alpha = Fin r /\ 0 <= r <= 1) /\ (1 <= n_boot)%Z.
Lemma ci_accepts alpha n_boot : ci_ok alpha n_boot -> check_confidence_interval_arguments alpha n_boot = Ok tt.
Proof.
  intros [(r & -> & Hr) Hn]. unfold check_confidence_interval_arguments, check_scalar, check_scalar_Z. cbn [nlt].
  rewrite !(proj2 (Rltb_false _ _)) by lra. cbn. destruct (Z.ltb_spec n_boot 1); [lia|]. reflexivity.
Qed.

Lemma init_inv {I} keys s0 ref (ests : list (est I)) o : meta_init keys s0 ref ests = Ok o -> o = mkOpe ref (est_dict ests) (any_model ests).
Proof. unfold meta_init. destruct (check_keys _ _); cbn [bind]; [|discriminate]. intros [= <-]. reflexivity. Qed.

Lemma given_not_none q : q <> AVal PNone -> arg_is_none q = false.
Proof. destruct q as [[| |]|]; cbn; congruence. Qed.
Lemma need_ok m q : (m = true -> q <> AVal PNone) -> need_model m q = Ok tt.
Proof. unfold need_model. destruct m; cbn [andb]; [|reflexivity]. intros H. rewrite (given_not_none q) by auto. reflexivity. Qed.

(** ** C51: OffPolicyEvaluation *)

(** The optional inputs fit the policy; the embedding distributions, if given, are given by name. *)
Definition inputs_fit (g : ope_args) : Prop :=
  exists dist, args_fit g dist /\ all_given (g_pea g) (rows_ok 3 (nth 1 (shape dist) 0%nat)).

Lemma ope_check_tests g : by_name (g_pea g) -> tests (ope_check g) (inputs_fit g).
Proof.
  intros Hn. unfold ope_check, inputs_fit, args_fit. destruct (check_array_iff (g_dist g) 3) as [(dist & Hd & ->)|[Hd ->]]; cbn [bind].
  2:{ right. split; auto. intros (d & (H & _) & _). apply (Hd d H). }
  assert (U : forall d, array_of (g_dist g) 3 d -> d = dist) by (intros d [E _]; destruct Hd as [E' _]; congruence).
  destruct (tests_q 3 (g_q g) dist) as [(v1 & -> & H1)|[-> H1]]; cbn [bind].
  2:{ right. split; auto. intros (d & (H & ? & _) & _). apply U in H as ->. auto. }
  destruct (tests_arg 1 dist (g_epscore g) v1) as [(v2 & -> & H2)|[-> H2]]; cbn [bind].
  2:{ right. split; auto. intros (d & (H & ? & ? & _) & _). apply U in H as ->. auto. }
  destruct (tests_arg 1 dist (g_iw g) v2) as [(v3 & -> & H3)|[-> H3]]; cbn [bind].
  2:{ right. split; auto. intros (d & (H & ? & ? & ? & _) & _). apply U in H as ->. auto. }
  destruct (tests_arg 2 dist (g_embed g) v3) as [(v4 & -> & H4)|[-> H4]]; cbn [bind].
  2:{ right. split; auto. intros (d & (H & ? & ? & ? & ? & _) & _). apply U in H as ->. auto. }
  destruct (tests_arg 3 dist (g_pib g) v4) as [(v5 & -> & H5)|[-> H5]]; cbn [bind].
  2:{ right. split; auto. intros (d & (H & ? & ? & ? & ? & ?) & _). apply U in H as ->. auto. }
  destruct (g_pea g) as [v|d]; cbn [check_pea all_given by_name] in *.
  - destruct v as [|a|]; [|destruct Hn|destruct Hn]. left. exists tt. split; auto. exists dist. tauto.
  - destruct (tests_mapM _ (fun kv => rows_ok 3 (nth 1 (shape dist) 0%nat) (snd kv)) d (fun kv => tests_item 3 1 dist (snd kv))) as [(vs & -> & H)|[-> H]]; cbn [bind].
    + left. exists tt. split; auto. exists dist. split; [tauto|]. intros nm v Hin. apply (H (nm, v) Hin).
    + right. split; auto. intros (d0 & (H0 & _) & G). apply U in H0 as ->. apply H. intros [nm v] Hin. apply (G nm v Hin).
Qed.

Lemma ope_inputs_ok ref ests s g m : ope_check g = Ok tt -> (forall k, In k ["action"; "position"; "reward"; "context"]%string -> has_key (s ref) k) ->
  exists es kw, in_charge ests es /\ est_dict ests = map (fun e => (e_name e, e)) es /\ NoDup (map e_name es) /\
    (forall nm, ope_kwargs (s ref) g nm (kw nm)) /\
    ope_inputs (mkOpe ref (est_dict ests) m) s g = Ok (map (fun e => (e_name e, kw (e_name e))) es).
Proof.
  intros Hc Hk. destruct (est_dict_charge ests) as (es & E & Hes & ND).
  destruct (Hk "action"%string) as (a & Ha); [cbn; tauto|]. destruct (Hk "position"%string) as (p & Hp); [cbn; tauto|].
  destruct (Hk "reward"%string) as (r & Hr); [cbn; tauto|]. destruct (Hk "context"%string) as (x & Hx); [cbn; tauto|].
  set (kw := fun nm => mkIn a p r x (optional (s ref) "pscore") (g_dist g) (given (g_q g) nm) (given (g_epscore g) nm)
           (given (g_iw g) nm) (given (g_embed g) nm) (given (g_pib g) nm) (given (g_pea g) nm)).
  exists es, kw.
  split; [auto|]. split; [auto|]. split; [auto|]. split; [intros nm; unfold ope_kwargs; cbn; repeat (split; auto)|].
  unfold ope_inputs. rewrite Hc. cbn [bind o_ref o_ests]. rewrite E. apply (inputs_ok es (ope_input (s ref) g) kw). intros e He.
  unfold ope_input, dgetitem. unfold has in *. rewrite Ha, Hp, Hr, Hx. reflexivity.
Qed.

(** One entry per distinct name, in order of first occurrence; the last given estimator of each name is run on the
    feedback as it is when the method is called, with its own entries of the optional inputs (None when missing). *)
Theorem C51_estimates : forall s0 s ref ests o g, ope_init s0 ref ests = Ok o ->
  (forall k, In k ["action"; "position"; "reward"; "context"]%string -> has_key (s ref) k) -> by_name (g_pea g) -> inputs_fit g ->
  exists es kw, in_charge ests es /\ (forall nm, ope_kwargs (s ref) g nm (kw nm)) /\
    (((exists e, In e ests /\ e_model e = true) -> g_q g <> AVal PNone) ->
       ope_values o s g = each es (fun e => e_value e (kw (e_name e))) /\
       forall alpha n_boot seed, ci_ok alpha n_boot ->
         ope_intervals o s g alpha n_boot seed = each es (fun e => e_interval e (kw (e_name e)) alpha n_boot seed)).
Proof.
  intros s0 s ref ests o g Hi Hk Hn Hf. apply init_inv in Hi as ->.
  assert (Hc : ope_check g = Ok tt) by (destruct (ope_check_tests g Hn) as [([] & H & _)|[_ H]]; tauto).
  destruct (ope_inputs_ok ref ests s g (any_model ests) Hc Hk) as (es & kw & H1 & E & ND & H2 & H3).
  exists es, kw. split; [auto|]. split; [auto|]. intros Hm.
  assert (Nm : need_model (any_model ests) (g_q g) = Ok tt).
  { apply need_ok. intros H. apply existsb_exists in H as (e & ? & ?). apply Hm. eauto. }
  split.
  - unfold ope_values. cbn [o_model]. rewrite Nm, H3. cbn [bind o_ests]. rewrite E. rewrite (run_ok _ es _ kw); auto. intros; apply inputs_get; auto.
  - intros alpha n_boot seed Hci. unfold ope_intervals. cbn [o_model]. rewrite Nm, H3, ci_accepts by auto. cbn [bind o_ests]. rewrite E.
    rewrite (run_ok (fun e i => e_interval e i alpha n_boot seed) es _ kw); auto. intros; apply inputs_get; auto.
Qed.

(** Ill-shaped inputs, a missing reward model and a missing key are rejected before any estimator runs. *)
Theorem C51_rejects : forall s0 s ref ests o g, ope_init s0 ref ests = Ok o ->
  (by_name (g_pea g) -> ~ inputs_fit g -> ope_values o s g = Err ValueError) /\
  ((exists e, In e ests /\ e_model e = true) -> g_q g = AVal PNone ->
     ope_values o s g = Err ValueError /\ forall alpha n_boot seed, ope_intervals o s g alpha n_boot seed = Err ValueError).
Proof.
  intros s0 s ref ests o g Hi. apply init_inv in Hi as ->. split.
  - intros Hn Hf. unfold ope_values, ope_inputs. cbn [o_model]. destruct (need_model _ _) as [[]|x] eqn:N; cbn [bind].
    + destruct (ope_check_tests g Hn) as [(? & _ & H)|[-> _]]; [contradiction|reflexivity].
    + unfold need_model in N. destruct (_ && _)%bool; [|discriminate]. injection N as <-. reflexivity.
  - intros (e & He & Hm) Hq. assert (N : need_model (any_model ests) (g_q g) = Err ValueError).
    { unfold need_model, any_model. rewrite (proj2 (existsb_exists _ _)) by eauto. rewrite Hq. reflexivity. }
    unfold ope_values, ope_intervals. cbn [o_model]. rewrite N. split; reflexivity.
Qed.
Theorem C51_missing_key : forall s ref (ests : list (est ope_in)) k, In k ["action"; "position"; "reward"; "context"]%string -> ~ has_key (s ref) k -> ope_init s ref ests = Err RuntimeError.
Proof.
  intros s ref ests k Hk Hn. unfold ope_init, meta_init, check_keys. rewrite (proj2 (existsb_exists _ _)); [reflexivity|].
  exists k. split; auto. destruct (dget (s ref) k) eqn:E; auto. exfalso. apply Hn. eexists. exact E.
Qed.

(** The embedding distribution given as one array for all estimators: its own shape is never compared with the number
    of actions.  Without any other input given by name the call fails, with one it fails unless the number of rounds
    happens to equal the number of actions. *)
Theorem C51_shared_p_e_a : forall s0 s ref ests o g dist a, ope_init s0 ref ests = Ok o -> args_fit g dist ->
  g_pea g = AVal (PArr a) -> length (shape a) = 3%nat ->
  ((exists e, In e ests /\ e_model e = true) -> g_q g <> AVal PNone) ->
  (List.Forall no_entries [g_q g; g_epscore g; g_iw g; g_embed g; g_pib g] -> ope_values o s g = Err NameError) /\
  (~ List.Forall no_entries [g_q g; g_epscore g; g_iw g; g_embed g; g_pib g] -> nth 0 (shape dist) 0%nat <> nth 1 (shape dist) 0%nat ->
     ope_values o s g = Err ValueError) /\
  (~ List.Forall no_entries [g_q g; g_epscore g; g_iw g; g_embed g; g_pib g] -> nth 0 (shape dist) 0%nat = nth 1 (shape dist) 0%nat ->
     ope_check g = Ok tt).
Proof.
  intros s0 s ref ests o g dist a Hi (Hd & H1 & H2 & H3 & H4 & H5) Hp Ha Hm. apply init_inv in Hi as ->.
  assert (Nm : need_model (any_model ests) (g_q g) = Ok tt).
  { apply need_ok. intros H. apply existsb_exists in H as (e & ? & ?). apply Hm. eauto. }
  assert (C : exists v, ope_check g = check_pea dist (g_pea g) v /\
    ((v = None /\ List.Forall no_entries [g_q g; g_epscore g; g_iw g; g_embed g; g_pib g]) \/
     (~ List.Forall no_entries [g_q g; g_epscore g; g_iw g; g_embed g; g_pib g] /\ exists w, v = Some w /\ nth 0 (shape w) 0%nat = nth 0 (shape dist) 0%nat))).
  { unfold ope_check. rewrite (check_array_ok _ _ _ Hd). cbn [bind].
    destruct (tests_q 3 (g_q g) dist) as [(v1 & E1 & _)|[_ N]]; [|tauto]. rewrite E1. cbn [bind].
    destruct (tests_arg 1 dist (g_epscore g) v1) as [(v2 & E2 & _)|[_ N]]; [|tauto]. rewrite E2. cbn [bind].
    destruct (tests_arg 1 dist (g_iw g) v2) as [(v3 & E3 & _)|[_ N]]; [|tauto]. rewrite E3. cbn [bind].
    destruct (tests_arg 2 dist (g_embed g) v3) as [(v4 & E4 & _)|[_ N]]; [|tauto]. rewrite E4. cbn [bind].
    destruct (tests_arg 3 dist (g_pib g) v4) as [(v5 & E5 & _)|[_ N]]; [|tauto]. rewrite E5. cbn [bind].
    exists v5. split; [reflexivity|].
    apply value_q in E1. apply value_arg in E2, E3, E4, E5.
    assert (Fa : forall a1 a2 a3 a4 a5, List.Forall no_entries [a1; a2; a3; a4; a5] <->
                  no_entries a1 /\ no_entries a2 /\ no_entries a3 /\ no_entries a4 /\ no_entries a5).
    { intros. rewrite !Forall_cons_iff. intuition. }
    assert (Ne : forall x, {no_entries x} + {~ no_entries x}).
    { intros [v|[|? ?]]; cbn [no_entries]; auto. }
    rewrite Fa.
    assert (Q1 : (v1 = None /\ no_entries (g_q g)) \/ (~ no_entries (g_q g) /\ exists w, v1 = Some w /\ nth 0 (shape w) 0%nat = nth 0 (shape dist) 0%nat)).
    { destruct v1 as [w|]; [right|left; auto]. destruct E1 as [Nn Sw]. split; [auto|]. exists w. rewrite Sw. auto. }
    clear E1. destruct E5 as [[-> ?]|[? ?]]; [|right; intuition]. destruct E4 as [[-> ?]|[? ?]]; [|right; intuition].
    destruct E3 as [[-> ?]|[? ?]]; [|right; intuition]. destruct E2 as [[-> ?]|[? ?]]; [|right; intuition].
    destruct Q1 as [[-> ?]|[? ?]]; [left; intuition|right; intuition]. }
  destruct C as (v & Ec & Hv). rewrite Hp in Ec. cbn [check_pea] in Ec. rewrite (check_array_ok (PArr a) 3 a) in Ec by (split; auto). cbn [bind] in Ec.
  unfold ope_values, ope_inputs. cbn [o_model]. rewrite Nm. cbn [bind].
  split; [|split]; intros HN.
  - destruct Hv as [[-> _]|[? _]]; [|contradiction]. rewrite Ec. reflexivity.
  - intros Hne. destruct Hv as [[_ ?]|[_ (w & -> & Hw)]]; [contradiction|]. rewrite Ec. unfold shape_at. rewrite Hw.
    rewrite (proj2 (Nat.eqb_neq _ _) Hne). reflexivity.
  - intros He. destruct Hv as [[_ ?]|[_ (w & -> & Hw)]]; [contradiction|]. rewrite Ec. unfold shape_at. rewrite Hw, He, Nat.eqb_refl. reflexivity.
Qed.

(** ** C51: the three other front ends *)

Definition multi_fits (g : multi_args) : Prop := exists dist, multi_fit g dist.
Lemma multi_check_tests g : tests (multi_check g) (multi_fits g).
Proof.
  unfold multi_check, multi_fits, multi_fit. destruct (check_array_iff (h_dist g) 3) as [(dist & Hd & ->)|[Hd ->]]; cbn [bind].
  2:{ right. split; auto. intros (d & H & _). apply (Hd d H). }
  assert (U : forall d, array_of (h_dist g) 3 d -> d = dist) by (intros d [E _]; destruct Hd as [E' _]; congruence).
  destruct (tests_q 3 (h_q g) dist) as [(v1 & -> & H1)|[-> H1]]; cbn [bind].
  2:{ right. split; auto. intros (d & H & ? & _). apply U in H as ->. auto. }
  destruct (tests_arg 1 dist (h_epscore g) None) as [(v2 & -> & H2)|[-> H2]]; cbn [bind].
  2:{ right. split; auto. intros (d & H & ? & ? & _). apply U in H as ->. auto. }
  destruct (tests_arg 1 dist (h_epscore_avg g) None) as [(v3 & -> & H3)|[-> H3]]; cbn [bind].
  2:{ right. split; auto. intros (d & H & ? & ? & ?). apply U in H as ->. auto. }
  left. exists tt. split; auto. exists dist. tauto.
Qed.

Lemma model_needed {I} (ests : list (est I)) q : ((exists e, In e ests /\ e_model e = true) -> q <> AVal PNone) -> need_model (any_model ests) q = Ok tt.
Proof. intros Hm. apply need_ok. intros H. apply existsb_exists in H as (e & ? & ?). apply Hm. eauto. Qed.
Lemma model_missing {I} (ests : list (est I)) q : (exists e, In e ests /\ e_model e = true) -> q = AVal PNone -> need_model (any_model ests) q = Err ValueError.
Proof. intros (e & He & Hm) Hq. unfold need_model, any_model. rewrite (proj2 (existsb_exists _ _)) by eauto. rewrite Hq. reflexivity. Qed.
Lemma keys_missing keys fb k : In k keys -> ~ has_key fb k -> check_keys keys fb = Err RuntimeError.
Proof.
  intros Hk Hn. unfold check_keys. rewrite (proj2 (existsb_exists _ _)); [reflexivity|].
  exists k. split; auto. destruct (dget fb k) eqn:E; auto. exfalso. apply Hn. eexists. exact E.
Qed.
Lemma keys_ok keys fb : (forall k, In k keys -> has_key fb k) -> check_keys keys fb = Ok tt.
Proof.
  intros H. unfold check_keys. destruct (existsb _ keys) eqn:E; [|reflexivity]. apply existsb_exists in E as (k & Hk & E). destruct (H k Hk) as (v & Hv). unfold has in Hv. rewrite Hv in E. discriminate.
Qed.

Theorem C51_multi : forall s0 s ref ests o g, multi_init s0 ref ests = Ok o -> (forall k, In k ["action"; "position"; "reward"]%string -> has_key (s ref) k) ->
  (multi_fits g ->
   exists es kw, in_charge ests es /\ (forall nm, multi_kwargs (s ref) g nm (kw nm)) /\
    (((exists e, In e ests /\ e_model e = true) -> h_q g <> AVal PNone) ->
       multi_values o s g = each es (fun e => e_value e (kw (e_name e))) /\
       forall alpha n_boot seed, ci_ok alpha n_boot ->
         multi_intervals o s g alpha n_boot seed = each es (fun e => e_interval e (kw (e_name e)) alpha n_boot seed))) /\
  (~ multi_fits g -> multi_values o s g = Err ValueError) /\
  ((exists e, In e ests /\ e_model e = true) -> h_q g = AVal PNone ->
     multi_values o s g = Err ValueError /\ forall alpha n_boot seed, multi_intervals o s g alpha n_boot seed = Err ValueError).
Proof.
  intros s0 s ref ests o g Hi Hk. apply init_inv in Hi as ->. split; [|split].
  - intros Hf. assert (Hc : multi_check g = Ok tt) by (destruct (multi_check_tests g) as [([] & H & _)|[_ H]]; tauto).
    destruct (est_dict_charge ests) as (es & E & Hes & ND).
    destruct (Hk "action"%string) as (a & Ha); [cbn; tauto|]. destruct (Hk "position"%string) as (p & Hp); [cbn; tauto|].
    destruct (Hk "reward"%string) as (r & Hr); [cbn; tauto|].
    set (kw := fun nm => mkMIn r a p (optional (s ref) "stratum_idx") (optional (s ref) "pscore") (optional (s ref) "pscore_avg")
                 (h_dist g) (given (h_q g) nm) (given (h_epscore g) nm) (given (h_epscore_avg g) nm)).
    exists es, kw. split; [auto|]. split; [intros nm; unfold multi_kwargs; cbn; repeat (split; auto)|]. intros Hm.
    assert (H3 : multi_inputs (mkOpe ref (est_dict ests) (any_model ests)) s g = Ok (map (fun e => (e_name e, kw (e_name e))) es)).
    { unfold multi_inputs. rewrite Hc. cbn [bind o_ref o_ests]. rewrite E. apply (inputs_ok es (multi_input (s ref) g) kw). intros e He.
      unfold multi_input, dgetitem. unfold has in *. rewrite Ha, Hp, Hr. reflexivity. }
    split.
    + unfold multi_values. cbn [o_model]. rewrite (model_needed _ _ Hm), H3. cbn [bind o_ests]. rewrite E. rewrite (run_ok _ es _ kw); auto. intros; apply inputs_get; auto.
    + intros alpha n_boot seed Hci. unfold multi_intervals. cbn [o_model]. rewrite (model_needed _ _ Hm), H3, ci_accepts by auto. cbn [bind o_ests]. rewrite E.
      rewrite (run_ok (fun e i => e_interval e i alpha n_boot seed) es _ kw); auto. intros; apply inputs_get; auto.
  - intros Hf. unfold multi_values, multi_inputs. cbn [o_model]. destruct (need_model _ _) as [[]|x] eqn:N; cbn [bind].
    + destruct (multi_check_tests g) as [(? & _ & H)|[-> _]]; [contradiction|reflexivity].
    + unfold need_model in N. destruct (_ && _)%bool; [|discriminate]. injection N as <-. reflexivity.
  - intros He Hq. unfold multi_values, multi_intervals. cbn [o_model]. rewrite (model_missing _ _ He Hq). split; reflexivity.
Qed.

(** Slates: one set of inputs for all estimators; at least one of the three propensities is required, and the
    policy's distribution and the reward model when the cascade doubly robust estimator is among the estimators. *)
Definition slate_fits (ests : list (est slate_in)) (g : slate_args) : Prop :=
  ~ (k_pscore g = PNone /\ k_item g = PNone /\ k_cascade g = PNone) /\
  ((exists e, In e ests /\ e_model e = true) -> k_dist g <> PNone /\ k_q g <> PNone).
Theorem C51_slate : forall s0 s ref ests o g, slate_init s0 ref ests = Ok o ->
  (slate_fits ests g ->
   exists es kw, in_charge ests es /\ slate_kwargs (s ref) g kw /\
     slate_values o s g = each es (fun e => e_value e kw) /\
     forall alpha n_boot seed, ci_ok alpha n_boot ->
       slate_intervals o s g alpha n_boot seed = each es (fun e => e_interval e kw alpha n_boot seed)) /\
  (~ slate_fits ests g -> slate_values o s g = Err ValueError).
Proof.
  intros s0 s ref ests o g Hi. apply init_inv in Hi as ->.
  assert (T : tests (slate_inputs (mkOpe ref (est_dict ests) (any_model ests)) s g) (slate_fits ests g)).
  { unfold slate_inputs, slate_fits. cbn [o_model].
    assert (N : forall v, is_none v = true <-> v = PNone) by (intros []; cbn; intuition congruence).
    assert (M : any_model ests = true <-> exists e, In e ests /\ e_model e = true) by apply existsb_exists.
    destruct (is_none (k_pscore g) && is_none (k_item g) && is_none (k_cascade g))%bool eqn:P; cbn [raise_if bind].
    { right. split; auto. intros [H _]. apply H. apply andb_true_iff in P as [P P3]. apply andb_true_iff in P as [P1 P2]. rewrite <- !N. auto. }
    assert (P' : ~ (k_pscore g = PNone /\ k_item g = PNone /\ k_cascade g = PNone)).
    { intros (H1 & H2 & H3). rewrite H1, H2, H3 in P. discriminate. }
    destruct (any_model ests) eqn:A; cbn [andb].
    - pose proof (proj1 M eq_refl) as A'. destruct (is_none (k_dist g)) eqn:D; cbn [raise_if bind].
      + right. split; auto. intros [_ H]. apply (proj1 (H A')). apply N. auto.
      + destruct (is_none (k_q g)) eqn:Q; cbn [raise_if bind].
        * right. split; auto. intros [_ H]. apply (proj2 (H A')). apply N. auto.
        * left. eexists. split; [reflexivity|]. split; auto. intros _. split; intros H; apply N in H; congruence.
    - cbn [raise_if bind]. left. eexists. split; [reflexivity|]. split; auto. intros H. apply M in H. discriminate. }
  split.
  - intros Hf. destruct T as [(kw & T & _)|[_ H]]; [|contradiction]. destruct (est_dict_charge ests) as (es & E & Hes & ND).
    exists es, kw. split; [auto|]. split.
    { revert T. unfold slate_inputs. cbn [o_model o_ref]. destruct (raise_if _ _); cbn [bind]; [|discriminate]. destruct (raise_if _ _); cbn [bind]; [|discriminate].
      destruct (raise_if _ _); cbn [bind]; [|discriminate]. intros [= <-]. unfold slate_kwargs. cbn. repeat (split; auto). }
    split.
    + unfold slate_values. rewrite T. cbn [bind o_ests]. rewrite E. rewrite (run_ok _ es _ (fun _ => kw)); auto.
    + intros alpha n_boot seed Hci. unfold slate_intervals. rewrite T, ci_accepts by auto. cbn [bind o_ests]. rewrite E.
      rewrite (run_ok (fun e i => e_interval e i alpha n_boot seed) es _ (fun _ => kw)); auto.
  - intros Hf. destruct T as [(kw & _ & H)|[T _]]; [contradiction|]. unfold slate_values. rewrite T. reflexivity.
Qed.

Definition cont_fits (action_e : pyval) (q : arg) : Prop := exists e, array_of action_e 1 e /\ all_given q (shape_ok 1 e).
Theorem C51_continuous : forall s0 s0' s ref ests o a q, cont_init s0 ref ests = Ok (o, s0') ->
  (forall k, In k ["reward"; "action_by_behavior_policy"; "pscore"]%string -> has_key (s ref) k) ->
  (cont_fits a q ->
   exists es kw, in_charge ests es /\ (forall nm, cont_kwargs (s ref) a q nm (kw nm)) /\
    (((exists e, In e ests /\ e_model e = true) -> q <> AVal PNone) ->
       cont_values o s a q = each es (fun e => e_value e (kw (e_name e))) /\
       forall alpha n_boot seed, ci_ok alpha n_boot ->
         cont_intervals o s a q alpha n_boot seed = each es (fun e => e_interval e (kw (e_name e)) alpha n_boot seed))) /\
  (~ cont_fits a q -> cont_values o s a q = Err ValueError) /\
  ((exists e, In e ests /\ e_model e = true) -> q = AVal PNone ->
     cont_values o s a q = Err ValueError /\ forall alpha n_boot seed, cont_intervals o s a q alpha n_boot seed = Err ValueError).
Proof.
  intros s0 s0' s ref ests o a q Hi Hk.
  assert (Ho : o = mkOpe ref (est_dict ests) (any_model ests)).
  { revert Hi. unfold cont_init. destruct (check_keys _ _); cbn [bind]; [|discriminate]. destruct (dgetitem _ _); cbn [bind]; [|discriminate]. intros [= <- _]. reflexivity. }
  subst o. split; [|split].
  - intros (e & He & Hq). destruct (est_dict_charge ests) as (es & E & Hes & ND).
    destruct (Hk "action_by_behavior_policy"%string) as (b & Hb); [cbn; tauto|]. destruct (Hk "reward"%string) as (r & Hr); [cbn; tauto|].
    destruct (Hk "pscore"%string) as (p & Hp); [cbn; tauto|].
    set (kw := fun nm => mkCIn r b p a (given q nm)). exists es, kw. split; [auto|]. split; [intros nm; unfold cont_kwargs; cbn; repeat (split; auto)|]. intros Hm.
    assert (H3 : cont_inputs (mkOpe ref (est_dict ests) (any_model ests)) s a q = Ok (map (fun e => (e_name e, kw (e_name e))) es)).
    { unfold cont_inputs. rewrite (check_array_ok _ _ _ He). cbn [bind]. destruct (tests_q 1 q e) as [(? & -> & _)|[_ N]]; [|contradiction].
      cbn [bind o_ref o_ests]. rewrite E. apply (inputs_ok es (cont_input (s ref) a q) kw). intros z Hz.
      unfold cont_input, dgetitem. unfold has in *. rewrite Hb, Hp, Hr. reflexivity. }
    split.
    + unfold cont_values. cbn [o_model]. rewrite (model_needed _ _ Hm), H3. cbn [bind o_ests]. rewrite E. rewrite (run_ok _ es _ kw); auto. intros; apply inputs_get; auto.
    + intros alpha n_boot seed Hci. unfold cont_intervals. cbn [o_model]. rewrite (model_needed _ _ Hm), H3, ci_accepts by auto. cbn [bind o_ests]. rewrite E.
      rewrite (run_ok (fun e i => e_interval e i alpha n_boot seed) es _ kw); auto. intros; apply inputs_get; auto.
  - intros Hf. unfold cont_values, cont_inputs. cbn [o_model]. destruct (need_model _ _) as [[]|x] eqn:N; cbn [bind].
    + destruct (check_array_iff a 1) as [(e & He & ->)|[He ->]]; cbn [bind]; [|reflexivity].
      destruct (tests_q 1 q e) as [(? & _ & H)|[-> _]]; [|reflexivity]. exfalso. apply Hf. exists e. auto.
    + unfold need_model in N. destruct (_ && _)%bool; [|discriminate]. injection N as <-. reflexivity.
  - intros He Hq. unfold cont_values, cont_intervals. cbn [o_model]. rewrite (model_missing _ _ He Hq). split; reflexivity.
Qed.

Theorem C51_missing_keys : forall s ref k,
  (forall ests, In k ["action"; "position"; "reward"]%string -> ~ has_key (s ref) k -> multi_init s ref ests = Err RuntimeError) /\
  (forall ests, In k ["slate_id"; "context"; "action"; "reward"; "position"]%string -> ~ has_key (s ref) k -> slate_init s ref ests = Err RuntimeError) /\
  (forall ests, In k ["action"; "reward"; "pscore"]%string -> ~ has_key (s ref) k -> cont_init s ref ests = Err RuntimeError).
Proof.
  intros s ref k. split; [|split]; intros ests Hk Hn.
  - unfold multi_init, meta_init. rewrite (keys_missing multi_keys _ _ Hk Hn). reflexivity.
  - unfold slate_init, meta_init. rewrite (keys_missing slate_keys _ _ Hk Hn). reflexivity.
  - unfold cont_init. rewrite (keys_missing cont_keys _ _ Hk Hn). reflexivity.
Qed.

(** The constructors accept a dictionary exactly if it has these keys. *)
Theorem C51_accepted_keys : forall s ref,
  (forall ests, (exists o, ope_init s ref ests = Ok o) <-> forall k, In k ["action"; "position"; "reward"; "context"]%string -> has_key (s ref) k) /\
  (forall ests, (exists o, multi_init s ref ests = Ok o) <-> forall k, In k ["action"; "position"; "reward"]%string -> has_key (s ref) k) /\
  (forall ests, (exists o, slate_init s ref ests = Ok o) <-> forall k, In k ["slate_id"; "context"; "action"; "reward"; "position"]%string -> has_key (s ref) k).
Proof.
  intros s ref.
  assert (G : forall I keys (ests : list (est I)), (exists o, meta_init keys s ref ests = Ok o) <-> forall k, In k keys -> has_key (s ref) k).
  { intros I keys ests. unfold meta_init. split.
    - intros (o & H) k Hk. destruct (dget (s ref) k) as [v|] eqn:E; [exists v; exact E|]. rewrite (keys_missing keys (s ref) k Hk) in H; [discriminate|].
      intros (v & Hv). unfold has in Hv. congruence.
    - intros H. rewrite keys_ok by auto. cbn [bind]. eauto. }
  split; [|split]; intros ests; apply G.
Qed.

(** ** C52: reported errors *)

Theorem C52_errors : forall o s g, reports_errors (ope_values o s g) (fun t m => ope_performance o s t g m).
Proof. intros. apply (errors_run (need_model (o_model o) (g_q g)) (ope_inputs o s g) (@dgetitem ope_in)). Qed.
Theorem C52_multi : forall o s g, reports_errors (multi_values o s g) (fun t m => multi_performance o s t g m).
Proof. intros. apply (errors_run (need_model (o_model o) (h_q g)) (multi_inputs o s g) (@dgetitem multi_in)). Qed.
Theorem C52_slate : forall o s g, reports_errors (slate_values o s g) (fun t m => slate_performance o s t g m).
Proof. intros. apply (errors_run (Ok tt) (slate_inputs o s g) (fun i _ => Ok i)). Qed.
Theorem C52_continuous : forall o s a q, reports_errors (cont_values o s a q) (fun t m => cont_performance o s t a q m).
Proof. intros. apply (errors_run (need_model (o_model o) q) (cont_inputs o s a q) (@dgetitem cont_in)). Qed.
(** Both errors are nonnegative, vanish exactly when the estimate is the truth, and order estimates alike. *)
Theorem C52_meaning : forall v t, 0 <= (v - t) ^ 2 /\ ((v - t) ^ 2 = 0 <-> v = t) /\
  (t <> 0 -> 0 <= Rabs ((v - t) / t) /\ (Rabs ((v - t) / t) = 0 <-> v = t) /\
     forall w, Rabs ((v - t) / t) <= Rabs ((w - t) / t) <-> (v - t) ^ 2 <= (w - t) ^ 2).
Proof.
  intros v t. split; [apply pow2_ge_0|]. split; [split; [intros H; assert (v - t = 0) by (apply Rsqr_0_uniq; unfold Rsqr; rewrite <- H; ring); lra|intros ->; ring]|]. intros Ht. split; [apply Rabs_pos|].
  assert (D : forall x, Rabs (x / t) = Rabs x / Rabs t).
  { intros x. unfold Rdiv. rewrite Rabs_mult, Rabs_inv. reflexivity. }
  assert (P : 0 < Rabs t) by (apply Rabs_pos_lt; auto). split.
  - rewrite D. split.
    + intros H. apply Rmult_integral in H as [H|H].
      * destruct (Req_dec (v - t) 0); [lra|]. apply Rabs_no_R0 in H0. contradiction.
      * apply Rinv_neq_0_compat in H; lra.
    + intros ->. replace (t - t) with 0 by ring. rewrite Rabs_R0. field. lra.
  - intros w. rewrite !D. assert (S : forall x, x ^ 2 = Rsqr x) by (intros; unfold Rsqr; ring). rewrite !S. split.
    + intros H. apply Rsqr_le_abs_1. apply (Rmult_le_compat_r (Rabs t)) in H; [|lra]. unfold Rdiv in H. rewrite !Rmult_assoc, Rinv_l, !Rmult_1_r in H by lra. auto.
    + intros H. apply Rsqr_le_abs_0 in H. unfold Rdiv. apply Rmult_le_compat_r; [|auto]. left. apply Rinv_0_lt_compat. auto.
Qed.

(** ** C105: relative values *)

Theorem C105_relative : forall o s g alpha n_boot seed a n r, has (s (o_ref o)) "reward" (PArr a) -> flatten a = tabF n r -> (0 < n)%nat ->
  reports_relative (ope_values o s g) (ope_intervals o s g alpha n_boot seed) (ope_summary o s g alpha n_boot seed) (avg n r).
Proof.
  intros o s g alpha n_boot seed a n r Ha Hf Hn. eapply relative_reports_ext; [|apply (relative_reports _ _ (Ok (Fin (avg n r)))); reflexivity].
  unfold ope_summary, dgetitem. unfold has in Ha. rewrite Ha. cbn [bind val_mean]. rewrite Hf, nmean_tabF by auto. reflexivity.
Qed.
Theorem C105_multi : forall o s g alpha n_boot seed a n r, has (s (o_ref o)) "reward" (PArr a) -> flatten a = tabF n r -> (0 < n)%nat ->
  reports_relative (multi_values o s g) (multi_intervals o s g alpha n_boot seed) (multi_summary o s g alpha n_boot seed) (avg n r).
Proof.
  intros o s g alpha n_boot seed a n r Ha Hf Hn. eapply relative_reports_ext; [|apply (relative_reports _ _ (Ok (Fin (avg n r)))); reflexivity].
  unfold multi_summary, dgetitem. unfold has in Ha. rewrite Ha. cbn [bind val_mean]. rewrite Hf, nmean_tabF by auto. reflexivity.
Qed.
Theorem C105_continuous : forall o s e q alpha n_boot seed a n r, has (s (o_ref o)) "reward" (PArr a) -> flatten a = tabF n r -> (0 < n)%nat ->
  reports_relative (cont_values o s e q) (cont_intervals o s e q alpha n_boot seed) (cont_summary o s e q alpha n_boot seed) (avg n r).
Proof.
  intros o s e q alpha n_boot seed a n r Ha Hf Hn. eapply relative_reports_ext; [|apply (relative_reports _ _ (Ok (Fin (avg n r)))); reflexivity].
  unfold cont_summary, dgetitem. unfold has in Ha. rewrite Ha. cbn [bind val_mean]. rewrite Hf, nmean_tabF by auto. reflexivity.
Qed.
(** Slates: total reward per distinct slate. *)
Theorem C105_slate : forall o s g alpha n_boot seed a n r ids, has (s (o_ref o)) "reward" (PArr a) -> flatten a = tabF n r ->
  has (s (o_ref o)) "slate_id" (PArr (NI ids)) -> ids <> [] ->
  reports_relative (slate_values o s g) (slate_intervals o s g alpha n_boot seed) (slate_summary o s g alpha n_boot seed)
    (sumn n r / INR (length (nodup Z.eq_dec ids))).
Proof.
  intros o s g alpha n_boot seed a n r ids Ha Hf Hs Hn. eapply relative_reports_ext; [|apply (relative_reports _ _ (Ok (Fin (sumn n r / INR (length (nodup Z.eq_dec ids)))))); reflexivity].
  unfold slate_summary, dgetitem. unfold has in Ha, Hs. rewrite Ha, Hs. cbn [bind val_sum n_slates]. rewrite Hf, nsum_tabF, unique_count. unfold nnat. rewrite ndiv_Fin; [reflexivity|].
  apply not_0_INR. destruct ids as [|x ids]; [congruence|]. intros E. apply length_zero_iff_nil in E. assert (In x []) by (rewrite <- E; apply nodup_In; left; auto). contradiction.
Qed.

(** ** C53: the continuous front end and the caller's dictionary *)

(** Construction adds (or refreshes) one key in the caller's dictionary and changes nothing else. *)
Theorem C53_annotates : forall s ref ests o s', cont_init s ref ests = Ok (o, s') ->
  o_ref o = ref /\ (forall l, l <> ref -> s' l = s l) /\
  (exists a, has (s ref) "action" a /\ has (s' ref) "action_by_behavior_policy" a) /\
  (forall k, k <> "action_by_behavior_policy"%string -> dget (s' ref) k = dget (s ref) k).
Proof.
  intros s ref ests o s'. unfold cont_init. destruct (check_keys _ _) as [[]|]; cbn [bind]; [|discriminate]. unfold dgetitem. destruct (dget (s ref) "action") as [a|] eqn:Ea; cbn [bind]; [|discriminate].
  intros [= <- <-]. unfold supd. split; [reflexivity|]. split; [intros l H; rewrite (proj2 (Nat.eqb_neq _ _) H); reflexivity|]. rewrite Nat.eqb_refl. split.
  - exists a. split; [exact Ea|]. unfold has. rewrite dget_dset, String.eqb_refl. reflexivity.
  - intros k Hk. rewrite dget_dset. destruct (String.eqb_spec "action_by_behavior_policy" k); [congruence|reflexivity].
Qed.
Theorem C53_accepts : forall s ref ests, (exists r, cont_init s ref ests = Ok r) <-> forall k, In k ["action"; "reward"; "pscore"]%string -> has_key (s ref) k.
Proof.
  intros s ref ests. split.
  - intros (r & H) k Hk. destruct (dget (s ref) k) as [v|] eqn:E; [exists v; exact E|]. exfalso.
    assert (Hn : ~ has_key (s ref) k) by (intros (v & Hv); unfold has in Hv; congruence). unfold cont_init in H. rewrite (keys_missing cont_keys _ _ Hk Hn) in H. discriminate.
  - intros H. unfold cont_init. rewrite keys_ok by auto. cbn [bind]. destruct (H "action"%string) as (a & Ha); [cbn; tauto|]. unfold dgetitem. unfold has in Ha. rewrite Ha. cbn [bind]. eexists. reflexivity.
Qed.
Lemma supd_idem s ref d : forall l, supd (supd s ref d) ref d l = supd s ref d l.
Proof. intros l. unfold supd. destruct (Nat.eqb l ref); reflexivity. Qed.
Lemma dset_idem {A} (d : dict A) k v : dset (dset d k v) k v = dset d k v.
Proof. induction d as [|[k0 w] d IH]; cbn [dset]; [rewrite String.eqb_refl; reflexivity|]. destruct (String.eqb k0 k) eqn:E; cbn [dset]; rewrite E; [reflexivity|]. rewrite IH. reflexivity. Qed.
(** A second construction from the same dictionary succeeds and leaves it as it is. *)
Theorem C53_idempotent : forall s ref ests ests' o s', cont_init s ref ests = Ok (o, s') ->
  exists o' s'', cont_init s' ref ests' = Ok (o', s'') /\ forall l, s'' l = s' l.
Proof.
  intros s ref ests ests' o s' H. pose proof H as H0. apply C53_annotates in H as (_ & _ & (a & Ha & Hb) & Hk).
  assert (K : forall k, In k ["action"; "reward"; "pscore"]%string -> has_key (s' ref) k).
  { intros k Hin. unfold has_key, has. rewrite Hk; [apply (proj1 (C53_accepts s ref ests) (ex_intro _ _ H0) k Hin)|]. intros ->. cbn in Hin. intuition discriminate. }
  destruct (proj2 (C53_accepts s' ref ests') K) as ([o' s''] & E). exists o', s''. split; [exact E|]. intros l.
  revert E. unfold cont_init. rewrite keys_ok by auto. cbn [bind]. unfold dgetitem. rewrite Hk by discriminate. unfold has in Ha. rewrite Ha. cbn [bind]. intros [= _ <-].
  unfold supd. destruct (Nat.eqb_spec l ref) as [->|]; [|reflexivity].
  unfold cont_init in H0. destruct (check_keys _ _); [|discriminate]. cbn [bind] in H0. unfold dgetitem in H0. rewrite Ha in H0. cbn [bind] in H0. injection H0 as _ <-.
  unfold supd. rewrite Nat.eqb_refl. apply dset_idem.
Qed.
(** The methods read the caller's dictionary when they are called, and only three of its keys: replacing its logged
    actions after the construction has no effect, replacing its rewards does. *)
Theorem C53_reads : forall s1 s2 o a q,
  (forall k, In k ["reward"; "action_by_behavior_policy"; "pscore"]%string -> dget (s1 (o_ref o)) k = dget (s2 (o_ref o)) k) ->
  cont_values o s1 a q = cont_values o s2 a q /\
  (forall alpha n_boot seed, cont_intervals o s1 a q alpha n_boot seed = cont_intervals o s2 a q alpha n_boot seed) /\
  (forall t m, cont_performance o s1 t a q m = cont_performance o s2 t a q m).
Proof.
  intros s1 s2 o a q H. assert (E : cont_inputs o s1 a q = cont_inputs o s2 a q).
  { unfold cont_inputs. destruct (check_array _ _); cbn [bind]; [|reflexivity]. destruct (check_q _ _ _); cbn [bind]; [|reflexivity].
    apply mapM_ext. intros [k e] _. cbn [fst]. unfold cont_input, dgetitem. rewrite !H by (cbn; tauto). reflexivity. }
  unfold cont_values, cont_intervals, cont_performance. rewrite E. auto.
Qed.
Theorem C53_stale_actions : forall s0 ref ests o s1 b a q, cont_init s0 ref ests = Ok (o, s1) ->
  cont_values o (supd s1 ref (dset (s1 ref) "action" b)) a q = cont_values o s1 a q.
Proof.
  intros s0 ref ests o s1 b a q H. apply C53_annotates in H as (<- & _). apply C53_reads. intros k Hk. unfold supd. rewrite Nat.eqb_refl, dget_dset.
  destruct (String.eqb_spec "action" k) as [<-|]; [|reflexivity]. cbn in Hk. intuition discriminate.
Qed.

(** ** From the front end to the estimators: for every accepted log *)

Definition log_feedback (l : blog) : dict pyval :=
  [("action", PArr (NI (actions l))); ("position", PArr (NI (positions l))); ("reward", PArr (N1 (rewards l)));
   ("context", PNone); ("pscore", PArr (N1 (pscores l)))]%string.
Definition ipw_est (nm : string) (lam : option R) iv : est ope_in := mkEst nm false (ipw_kw (ipw_round (lam_num lam)) false) iv.
Definition dm_est (nm : string) iv : est ope_in := mkEst nm true dm_kw iv.
Definition dr_est (nm : string) (lam : option R) iv : est ope_in := mkEst nm true (dr_kw (dr_round (lam_num lam)) false) iv.

(** Two estimators share a name: the second one is reported, in the first one's place.  The reward model is given by
    name for the two estimators that use it. *)
Theorem C51_end_to_end : forall l lam1 lam2 lam3 iv ref s, accepted l -> s ref = log_feedback l ->
  let q := PArr (N3 (model l)) in
  exists o, ope_init s ref [ipw_est "ipw" lam1 iv; dm_est "dm" iv; dr_est "dr" lam3 iv; ipw_est "ipw" lam2 iv] = Ok o /\
    ope_values o s (mkArgs (PArr (N3 (policy l))) (ADict [("dm", q); ("dr", q)]%string) (AVal PNone) (AVal PNone) (AVal PNone) (AVal PNone) (AVal PNone))
    = Ok [("ipw", Fin (spec_ipw lam2 l)); ("dm", Fin (spec_dm l)); ("dr", Fin (spec_dr lam3 l))]%string.
Proof.
  intros l lam1 lam2 lam3 iv ref s H Hs q. set (ests := [ipw_est "ipw" lam1 iv; dm_est "dm" iv; dr_est "dr" lam3 iv; ipw_est "ipw" lam2 iv]).
  assert (K : forall k, In k ["action"; "position"; "reward"; "context"]%string -> has_key (s ref) k).
  { intros k Hk. rewrite Hs. cbn in Hk. unfold has_key, has. intuition; subst k; eexists; reflexivity. }
  set (g := mkArgs _ _ _ _ _ _ _).
  assert (Hi : ope_init s ref ests = Ok (mkOpe ref (est_dict ests) (any_model ests))) by (unfold ope_init, meta_init; rewrite keys_ok by auto; reflexivity).
  eexists. split; [exact Hi|].
  assert (Sh : shape (N3 (model l)) = shape (N3 (policy l))).
  { cbn [shape]. unfold model, policy. assert (0 < lg_K l)%nat by (pose proof (acc_a l H 0%nat (acc_n l H)); lia).
    rewrite !dim1_tab3, !dim2_tab3 by (auto; apply H). unfold tab3F, tab3. rewrite !tab_length. reflexivity. }
  assert (Hn : by_name (g_pea g)) by exact Logic.I.
  assert (Hf : inputs_fit g).
  { exists (N3 (policy l)). split; [|exact Logic.I]. split; [split; reflexivity|]. cbn [g_q g all_given]. repeat split.
    intros nm v [[= _ <-]|[[= _ <-]|[]]]; exists (N3 (model l)); (split; [split; reflexivity|exact Sh]). }
  assert (Hc : ope_check g = Ok tt) by (destruct (ope_check_tests g Hn) as [([] & E & _)|[_ E]]; tauto).
  unfold ope_values, ope_inputs. cbn [o_model]. rewrite model_needed by (intros _; discriminate). rewrite Hc. cbn [bind o_ref o_ests]. rewrite Hs.
  assert (A : position_arg l (Some (positions l))) by (left; reflexivity).
  assert (P : pscore_arg l false (Some (pscores l)) None) by reflexivity.
  assert (I : ipw_kw (ipw_round (lam_num lam2)) false (mkIn (PArr (NI (actions l))) (PArr (NI (positions l))) (PArr (N1 (rewards l))) PNone (PArr (N1 (pscores l)))
                (PArr (N3 (policy l))) PNone PNone PNone PNone PNone PNone) = Ok (Fin (spec_ipw lam2 l))).
  { etransitivity; [|exact (ipw_value_ok lam2 false l _ _ None H A P)]. reflexivity. }
  assert (D : dm_kw (mkIn (PArr (NI (actions l))) (PArr (NI (positions l))) (PArr (N1 (rewards l))) PNone (PArr (N1 (pscores l)))
                (PArr (N3 (policy l))) q PNone PNone PNone PNone PNone) = Ok (Fin (spec_dm l))).
  { etransitivity; [|exact (dm_value_ok l _ H A)]. reflexivity. }
  assert (R : dr_kw (dr_round (lam_num lam3)) false (mkIn (PArr (NI (actions l))) (PArr (NI (positions l))) (PArr (N1 (rewards l))) PNone (PArr (N1 (pscores l)))
                (PArr (N3 (policy l))) q PNone PNone PNone PNone PNone) = Ok (Fin (spec_dr lam3 l))).
  { etransitivity; [|exact (dr_value_ok lam3 false l _ _ None H A P)]. reflexivity. }
  cbn -[ipw_kw dm_kw dr_kw model policy actions rewards positions pscores lam_num ipw_round dr_round]. rewrite I. cbn [bind]. rewrite D. cbn [bind]. rewrite R. reflexivity.
Qed.
Example C51_ex : accepted ex_log /\ exists s : store, s 0%nat = log_feedback ex_log.
Proof. split; [apply C10_example|]. exists (fun _ => log_feedback ex_log). reflexivity. Qed.

(** Hypotheses of C52, C53 and C105 are met: estimates, errors and relative values of one constant estimator on a
    continuous-action feedback with mean reward 2. *)
Definition cx_est : est cont_in := mkEst "e" false (fun _ => Ok (Fin 3)) (fun _ _ _ _ => Err ValueError).
Definition cx_store : store := fun _ => [("action", PArr (N1 [Fin 1; Fin 2])); ("reward", PArr (N1 [Fin 1; Fin 3])); ("pscore", PArr (N1 [Fin 1; Fin 1]))]%string.
Example C53_ex : exists o s', cont_init cx_store 0 [cx_est] = Ok (o, s') /\
  cont_values o s' (PArr (N1 [Fin 1; Fin 1])) (AVal PNone) = Ok [("e"%string, Fin 3)] /\
  s' 0%nat = cx_store 0%nat ++ [("action_by_behavior_policy"%string, PArr (N1 [Fin 1; Fin 2]))].
Proof. eexists _, _. split; [reflexivity|]. split; reflexivity. Qed.
Example C52_C105_ex : exists o s', cont_init cx_store 0 [cx_est] = Ok (o, s') /\
  cont_values o s' (PArr (N1 [Fin 1; Fin 1])) (AVal PNone) = Ok (map (fun kv => (fst kv, Fin (snd kv))) [("e"%string, 3)]) /\
  has (s' (o_ref o)) "reward" (PArr (N1 (tabF 2 (fun i => if Nat.eqb i 0 then 1 else 3)))) /\ 0 < avg 2 (fun i => if Nat.eqb i 0 then 1 else 3).
Proof. eexists _, _. split; [reflexivity|]. split; [reflexivity|]. split; [reflexivity|]. unfold avg, sumn. cbn. lra. Qed.

Print Assumptions C51_estimates.
Print Assumptions C51_rejects.
Print Assumptions C51_missing_key.
Print Assumptions C51_shared_p_e_a.
Print Assumptions C51_multi.
Print Assumptions C51_slate.
Print Assumptions C51_continuous.
Print Assumptions C51_missing_keys.
Print Assumptions C51_accepted_keys.
Print Assumptions C51_end_to_end.
Print Assumptions C52_errors.
Print Assumptions C52_multi.
Print Assumptions C52_slate.
Print Assumptions C52_continuous.
Print Assumptions C52_meaning.
Print Assumptions C53_annotates.
Print Assumptions C53_accepts.
Print Assumptions C53_idempotent.
Print Assumptions C53_reads.
Print Assumptions C53_stale_actions.
Print Assumptions C105_relative.
Print Assumptions C105_multi.
Print Assumptions C105_continuous.
Print Assumptions C105_slate.
