(** * P_Visual: property C156 (what the figures show) *)

From Coq Require Import Ascii String Reals List ZArith Lia Lra Bool Permutation.
From Verif Require Import Num NpList M_Utils M_Estimators M_Meta M_Visual S_Base S_Estimators S_Meta S_Examples
  L_Num L_Base L_Estimators L_Examples L_Meta P_Meta.
Import ListNotations.
Open Scope R_scope.

(** ** Means of columns *)

Lemma nsum_Fin_inv l s : nsum l = Fin s -> exists xs, l = map Fin xs.
Proof.
  revert s. induction l as [|x l IH]; intros s H; [exists []; reflexivity|]. cbn [nsum fold_right] in H. fold (nsum l) in H.
  destruct x as [x| | |]; [|destruct (nsum l); discriminate H..].
  destruct (nsum l) as [t| | |] eqn:E; try discriminate H. destruct (IH t eq_refl) as (xs & ->). exists (x :: xs). reflexivity.
Qed.

Lemma map_Fin_tab xs : map Fin xs = tabF (length xs) (fun i => nth i xs 0).
Proof.
  unfold tabF, tab. rewrite <- (map_map (fun i => nth i xs 0) Fin). f_equal. induction xs as [|x xs IH]; [reflexivity|]. cbn [length seq map]. f_equal. rewrite <- seq_shift, map_map. exact IH.
Qed.

Lemma nmean_Fin_inv l v : nmean l = Fin v -> exists n f, (0 < n)%nat /\ l = tabF n f /\ v = avg n f.
Proof.
  intros H. destruct (nsum l) as [s| | |] eqn:E.
  - destruct (nsum_Fin_inv l s E) as (xs & ->). rewrite map_Fin_tab in H |- *. destruct xs as [|x xs].
    + exfalso. assert (X : nmean (tabF (length (@nil R)) (fun i => nth i [] 0)) = NaN) by exact ndiv_0_0. rewrite X in H. discriminate.
    + exists (length (x :: xs)), (fun i => nth i (x :: xs) 0). split; [cbn; lia|]. split; [reflexivity|]. rewrite nmean_tabF in H by (cbn; lia). injection H as <-. reflexivity.
  - exfalso. unfold nmean, nnat in H. rewrite E in H. cbn [ndiv] in H. destruct (Rltb _ _); discriminate.
  - exfalso. unfold nmean, nnat in H. rewrite E in H. cbn [ndiv] in H. destruct (Rltb _ _); discriminate.
  - exfalso. unfold nmean, nnat in H. rewrite E in H. cbn in H. discriminate.
Qed.

Lemma bar_tabF n f : (0 < n)%nat -> bar (tabF n f) = Fin (avg n f).
Proof.
  intros Hn. unfold bar. replace (filter _ _) with (tabF n f); [apply nmean_tabF; auto|]. symmetry. unfold tabF, tab. induction (seq 0 n) as [|i l IH]; cbn; [reflexivity|]. f_equal. exact IH.
Qed.

Lemma scaled_tabF n f b : b <> 0 -> scaled (Some (Fin b)) (tabF n f) = tabF n (fun i => f i / b).
Proof. intros Hb. cbn [scaled]. apply (map_tabF (fun x => ndiv x (Fin b)) (fun x => x / b)). intros x Hx. apply ndiv_Fin. auto. Qed.

(** ** C156: one policy *)

(** Where an estimator returns a value, that value is the mean of its round rewards, [n] of them. *)
Definition mean_of_rounds {I} (rounds_of : est I -> I -> res arr1) (n : nat) (e : est I) : Prop :=
  forall i v, e_value e i = Ok v -> exists col, rounds_of e i = Ok col /\ length col = n /\ nmean col = v.

Definition matches (n : nat) (c : string * arr1) (v : string * num) : Prop := fst c = fst v /\ length (snd c) = n /\ nmean (snd c) = snd v.

Lemma dset_matches n cols vs k col v : Forall2 (matches n) cols vs -> length col = n -> nmean col = v -> Forall2 (matches n) (dset cols k col) (dset vs k v).
Proof.
  intros H Hl Hv. induction H as [|[k1 c] [k2 w] cols vs [E1 E2] H IH]; cbn [dset].
  - constructor; [|constructor]. split; auto.
  - cbn in E1. subst k2. destruct (String.eqb k1 k); constructor; auto; split; auto.
Qed.

Lemma run_matches {I} (rounds_of : est I -> I -> res arr1) n ests inputs : (forall nm e, In (nm, e) ests -> mean_of_rounds rounds_of n e) ->
  forall cols vs vs', Forall2 (matches n) cols vs -> run (fun e i => e_value e i) ests inputs vs = Ok vs' ->
  exists cols', run rounds_of ests inputs cols = Ok cols' /\ Forall2 (matches n) cols' vs'.
Proof.
  induction ests as [|[nm e] ests IH]; intros He cols vs vs' HF Hr; cbn [run] in *.
  - injection Hr as <-. eauto.
  - destruct (inputs nm) as [i|]; cbn [bind] in *; [|discriminate]. destruct (e_value e i) as [v|] eqn:Ev; cbn [bind] in *; [|discriminate].
    destruct (He nm e (or_introl eq_refl) i v Ev) as (col & -> & Hl & Hv). cbn [bind]. eapply IH; [|apply dset_matches; eauto|exact Hr]. intros nm' e' Hin. apply (He nm' e'). right. auto.
Qed.

Lemma frame_ok n cols : (forall c, In c cols -> length (snd c) = n) -> frame cols = Ok tt.
Proof.
  intros H. unfold frame. replace (forallb _ cols) with true; [reflexivity|]. symmetry. apply forallb_forall. intros c Hc. apply Nat.eqb_eq. rewrite (H c Hc).
  destruct cols as [|c0 cols]; [destruct Hc|]. cbn [nth]. symmetry. apply H. left. auto.
Qed.

Lemma figure_matches {I} (rounds_of : est I -> I -> res arr1) n ests fb inputs vs : (forall nm e, In (nm, e) ests -> mean_of_rounds rounds_of n e) ->
  (ins <- inputs ;; run (fun e i => e_value e i) ests (dgetitem ins) []) = Ok (map (fun kv => (fst kv, Fin (snd kv))) vs) ->
  figure rounds_of ests fb inputs false = Ok (map (fun kv => (upper (fst kv), Fin (snd kv))) vs) /\
  forall a b, has fb "reward" (PArr a) -> nmean (flatten a) = Fin b -> b <> 0 ->
    figure rounds_of ests fb inputs true = Ok (map (fun kv => (upper (fst kv), Fin (snd kv / b))) vs).
Proof.
  intros He Hv. unfold figure. destruct inputs as [ins|]; cbn [bind] in *; [|discriminate].
  destruct (run_matches rounds_of n ests (dgetitem ins) He [] [] _ ltac:(constructor) Hv) as (cols & -> & HF). cbn [bind].
  assert (HL : forall c, In c cols -> length (snd c) = n).
  { clear - HF. intros c Hc. remember (map (fun kv => (fst kv, Fin (snd kv))) vs) as ws. clear Heqws. revert Hc. induction HF as [|x y l l' (_ & Hx & _) _ IH]; intros Hc; [destruct Hc|destruct Hc as [<-|Hc]; auto]. }
  rewrite (frame_ok n) by auto. cbn [bind base_of]. split.
  - f_equal. clear - HF. revert cols HF. induction vs as [|[k v] vs IH]; intros cols HF; inversion HF as [|c ? cols' ? (E1 & E2 & E3) HF']; subst; [reflexivity|].
    cbn [map]. rewrite IH by auto. cbn [fst snd] in *. rewrite E1. destruct (nmean_Fin_inv _ _ E3) as (m & f & Hm & Ec & ->). rewrite Ec. cbn [scaled]. rewrite bar_tabF by auto. reflexivity.
  - intros a b Ha Hb Nb. unfold dgetitem. unfold has in Ha. rewrite Ha. cbn [bind val_mean]. rewrite Hb.
    f_equal. clear - HF Nb. revert cols HF. induction vs as [|[k v] vs IH]; intros cols HF; inversion HF as [|c ? cols' ? (E1 & E2 & E3) HF']; subst; [reflexivity|].
    cbn [map]. rewrite IH by auto. cbn [fst snd] in *. rewrite E1. destruct (nmean_Fin_inv _ _ E3) as (m & f & Hm & Ec & ->). rewrite Ec, scaled_tabF, bar_tabF by auto.
    do 3 f_equal. unfold avg. rewrite sumn_div. assert (INR m <> 0) by (apply not_0_INR; lia). field. auto.
Qed.

Lemma dict_in {I} (ests : list (est I)) nm e : In (nm, e) (est_dict ests) -> In e ests.
Proof.
  destruct (est_dict_charge ests) as (es & E & [_ Hes] & _). rewrite E. intros H. apply in_map_iff in H as (e' & [= _ ->] & H). destruct (Hes e H) as (b & a & -> & _). apply in_app_iff. right. left. auto.
Qed.

(** The bars of the three front ends are the estimates: if [estimate_policy_values] returns (finite) values, the figure shows them under
    the names in capitals, divided by the mean logged reward when [is_relative]. *)
Theorem C156_bars : forall n s0 s ref ests o g rounds_of vs, ope_init s0 ref ests = Ok o -> (forall e, In e ests -> mean_of_rounds rounds_of n e) ->
  ope_values o s g = Ok (map (fun kv => (fst kv, Fin (snd kv))) vs) ->
  ope_figure rounds_of o s g false = Ok (map (fun kv => (upper (fst kv), Fin (snd kv))) vs) /\
  forall a b, has (s ref) "reward" (PArr a) -> nmean (flatten a) = Fin b -> b <> 0 ->
    ope_figure rounds_of o s g true = Ok (map (fun kv => (upper (fst kv), Fin (snd kv / b))) vs).
Proof.
  intros n s0 s ref ests o g rounds_of vs Hi He Hv. apply init_inv in Hi as ->. unfold ope_figure. cbn [o_ests o_ref]. apply (figure_matches rounds_of n).
  - intros nm e Hin. apply He. eapply dict_in; eauto.
  - revert Hv. unfold ope_values. destruct (need_model _ _); cbn [bind]; [|discriminate]. auto.
Qed.
Theorem C156_multi : forall n s0 s ref ests o g rounds_of vs, multi_init s0 ref ests = Ok o -> (forall e, In e ests -> mean_of_rounds rounds_of n e) ->
  multi_values o s g = Ok (map (fun kv => (fst kv, Fin (snd kv))) vs) ->
  multi_figure rounds_of o s g false = Ok (map (fun kv => (upper (fst kv), Fin (snd kv))) vs) /\
  forall a b, has (s ref) "reward" (PArr a) -> nmean (flatten a) = Fin b -> b <> 0 ->
    multi_figure rounds_of o s g true = Ok (map (fun kv => (upper (fst kv), Fin (snd kv / b))) vs).
Proof.
  intros n s0 s ref ests o g rounds_of vs Hi He Hv. apply init_inv in Hi as ->. unfold multi_figure. cbn [o_ests o_ref]. apply (figure_matches rounds_of n).
  - intros nm e Hin. apply He. eapply dict_in; eauto.
  - revert Hv. unfold multi_values. destruct (need_model _ _); cbn [bind]; [|discriminate]. auto.
Qed.
Theorem C156_continuous : forall n s0 s0' s ref ests o a0 q rounds_of vs, cont_init s0 ref ests = Ok (o, s0') -> (forall e, In e ests -> mean_of_rounds rounds_of n e) ->
  cont_values o s a0 q = Ok (map (fun kv => (fst kv, Fin (snd kv))) vs) ->
  cont_figure rounds_of o s a0 q false = Ok (map (fun kv => (upper (fst kv), Fin (snd kv))) vs) /\
  forall a b, has (s ref) "reward" (PArr a) -> nmean (flatten a) = Fin b -> b <> 0 ->
    cont_figure rounds_of o s a0 q true = Ok (map (fun kv => (upper (fst kv), Fin (snd kv / b))) vs).
Proof.
  intros n s0 s0' s ref ests o a0 q rounds_of vs Hi He Hv.
  assert (Ho : o = mkOpe ref (est_dict ests) (any_model ests)).
  { revert Hi. unfold cont_init. destruct (check_keys _ _); cbn [bind]; [|discriminate]. destruct (dgetitem _ _); cbn [bind]; [|discriminate]. intros [= <- _]. reflexivity. }
  subst o. unfold cont_figure. cbn [o_ests o_ref]. apply (figure_matches rounds_of n).
  - intros nm e Hin. apply He. eapply dict_in; eauto.
  - revert Hv. unfold cont_values. destruct (need_model _ _); cbn [bind]; [|discriminate]. auto.
Qed.

(** ** C156: the estimators of OffPolicyEvaluation *)

Inductive kind := KIpw (lam : option R) | KSnipw | KDm | KDr (lam : option R) | KSwitch (lam : option R).
(** An estimator object: name, class and [use_estimated_pscore]. *)
Definition obj := (string * kind * bool)%type.
Definition obj_name (x : obj) : string := fst (fst x).
Definition kind_kw (k : kind) (use_est : bool) : ope_in -> res num :=
  match k with
  | KIpw lam => ipw_kw (ipw_round (lam_num lam)) use_est | KSnipw => ipw_kw snipw_round use_est | KDm => dm_kw
  | KDr lam => dr_kw (dr_round (lam_num lam)) use_est | KSwitch lam => dr_kw (switch_round (lam_num lam)) use_est
  end.
Definition kind_rounds (k : kind) : ope_in -> res arr1 :=
  match k with
  | KIpw lam => ipw_rounds_kw (ipw_round (lam_num lam)) | KSnipw => ipw_rounds_kw snipw_round | KDm => dm_rounds_kw
  | KDr lam => dr_rounds_kw (dr_round (lam_num lam)) | KSwitch lam => dr_rounds_kw (switch_round (lam_num lam))
  end.
Definition obj_est iv (x : obj) : est ope_in := mkEst (obj_name x) false (kind_kw (snd (fst x)) (snd x)) iv.
(** The method of the object with the estimator's name; no such object, no method. *)
Definition methods (objs : list obj) (e : est ope_in) : ope_in -> res arr1 :=
  match find (fun x => String.eqb (obj_name x) (e_name e)) objs with Some x => kind_rounds (snd (fst x)) | None => fun _ => Err AttributeError end.
(** What the class estimates from a log. *)
Definition kind_spec (k : kind) (l : blog) : R :=
  match k with KIpw lam => spec_ipw lam l | KSnipw => spec_snipw l | KDm => spec_dm l | KDr lam => spec_dr lam l | KSwitch lam => spec_switch lam l end.
(** The log with other propensities. *)
Definition with_pscore (l : blog) (p : nat -> R) : blog := mkLog (lg_n l) (lg_K l) (lg_L l) (lg_r l) (lg_a l) (lg_pos l) p (lg_pi l) (lg_q l).

Lemma dset_new {A} (d : dict A) k v : ~ In k (map fst d) -> dset d k v = d ++ [(k, v)].
Proof. induction d as [|[k' w] d IH]; cbn; intros H; [reflexivity|]. destruct (String.eqb_spec k' k); [intuition|]. rewrite IH; intuition. Qed.

Lemma est_dict_nodup {I} (ests : list (est I)) : NoDup (map e_name ests) -> est_dict ests = map (fun e => (e_name e, e)) ests.
Proof.
  unfold est_dict. enough (G : forall acc, (forall k, In k (map fst acc) -> ~ In k (map e_name ests)) -> NoDup (map e_name ests) ->
     fold_left (fun d e => dset d (e_name e) e) ests acc = acc ++ map (fun e => (e_name e, e)) ests) by (intros H; apply (G []); auto).
  induction ests as [|e ests IH]; intros acc Ha ND; cbn [fold_left map]; [rewrite app_nil_r; reflexivity|]. cbn [map] in ND. inversion ND as [|? ? N1 N2]; subst.
  rewrite dset_new by (intros H; apply (Ha _ H); left; auto). rewrite IH; auto.
  - rewrite <- app_assoc. reflexivity.
  - intros k Hk. rewrite map_app, in_app_iff in Hk. destruct Hk as [Hk|[<-|[]]]; [|exact N1]. intros H. apply (Ha k Hk). right. auto.
Qed.

Lemma each_ok {I B} (es : list (est I)) (f : est I -> res B) (g : est I -> B) : (forall e, In e es -> f e = Ok (g e)) -> each es f = Ok (map (fun e => (e_name e, g e)) es).
Proof.
  unfold each. induction es as [|e es IH]; intros H; cbn [mapM map]; [reflexivity|]. rewrite H by (left; auto). cbn [bind]. rewrite IH by (intros; apply H; right; auto). reflexivity.
Qed.

Definition log_kwargs (l : blog) (p : nat -> R) : ope_in :=
  mkIn (PArr (NI (actions l))) (PArr (NI (positions l))) (PArr (N1 (rewards l))) PNone (PArr (N1 (pscores l))) (PArr (N3 (policy l)))
    (PArr (N3 (model l))) (PArr (N1 (tabF (lg_n l) p))) PNone PNone PNone PNone.

(** The rounds and the value of one object on a log. *)
Lemma kind_rounds_ok l p k : accepted l -> sumn (lg_n l) (weight l) <> 0 ->
  exists f, kind_rounds k (log_kwargs l p) = Ok (tabF (lg_n l) f) /\ avg (lg_n l) f = kind_spec k l.
Proof.
  intros H Hs. destruct k as [lam| | |lam|lam]; cbn [kind_rounds kind_spec]; eexists; (split; [|]).
  - etransitivity; [|apply (ipw_round_ok lam l H)]. reflexivity.
  - reflexivity.
  - etransitivity; [|apply (snipw_round_ok l H Hs)]. reflexivity.
  - pose proof (snipw_value_ok false l (Some (positions l)) (Some (pscores l)) None H ltac:(left; reflexivity) eq_refl Hs) as E.
    unfold snipw_value in E. erewrite ipw_like_value_ok in E; eauto using snipw_round_ok; [|left; reflexivity|reflexivity]. injection E as E. exact E.
  - etransitivity; [|apply (dm_round_ok l H)]. reflexivity.
  - reflexivity.
  - etransitivity; [|apply (dr_round_ok lam l H)]. reflexivity.
  - apply (dr_sum (clip lam)).
  - etransitivity; [|apply (switch_round_ok lam l H)]. reflexivity.
  - apply (dr_sum (switch_w lam)).
Qed.

Lemma kind_kw_ok l p k (use_est : bool) : accepted l -> accepted (with_pscore l p) -> sumn (lg_n l) (weight (if use_est then with_pscore l p else l)) <> 0 ->
  kind_kw k use_est (log_kwargs l p) = Ok (Fin (kind_spec k (if use_est then with_pscore l p else l))).
Proof.
  intros H H' Hs.
  set (l' := if use_est then with_pscore l p else l) in *.
  assert (A' : accepted l') by (unfold l'; destruct use_est; auto).
  assert (P : position_arg l' (Some (positions l'))) by (left; reflexivity).
  assert (S : pscore_arg l' false (Some (pscores l')) None) by reflexivity.
  assert (N : lg_n l' = lg_n l) by (unfold l'; destruct use_est; reflexivity). rewrite <- N in Hs.
  destruct k as [lam| | |lam|lam]; cbn [kind_kw kind_spec].
  - etransitivity; [|exact (ipw_value_ok lam false l' _ _ None A' P S)]. unfold l'. destruct use_est; reflexivity.
  - etransitivity; [|exact (snipw_value_ok false l' _ _ None A' P S Hs)]. unfold l'. destruct use_est; reflexivity.
  - etransitivity; [|exact (dm_value_ok l' _ A' P)]. unfold l'. destruct use_est; reflexivity.
  - etransitivity; [|exact (dr_value_ok lam false l' _ _ None A' P S)]. unfold l'. destruct use_est; reflexivity.
  - etransitivity; [|exact (switch_value_ok lam false l' _ _ None A' P S)]. unfold l'. destruct use_est; reflexivity.
Qed.

(** On every accepted log: the values use the estimated propensities where the estimator was told to, the bars never do. *)
Theorem C156_logged_pscore : forall l p objs iv ref s, accepted l -> accepted (with_pscore l p) -> NoDup (map obj_name objs) ->
  sumn (lg_n l) (weight l) <> 0 -> sumn (lg_n l) (weight (with_pscore l p)) <> 0 -> s ref = log_feedback l ->
  let g := mkArgs (PArr (N3 (policy l))) (AVal (PArr (N3 (model l)))) (AVal (PArr (N1 (tabF (lg_n l) p)))) (AVal PNone) (AVal PNone) (AVal PNone) (AVal PNone) in
  exists o, ope_init s ref (map (obj_est iv) objs) = Ok o /\
    ope_values o s g = Ok (map (fun x => (obj_name x, Fin (kind_spec (snd (fst x)) (if snd x then with_pscore l p else l)))) objs) /\
    ope_figure (methods objs) o s g false = Ok (map (fun x => (upper (obj_name x), Fin (kind_spec (snd (fst x)) l))) objs).
Proof.
  intros l p objs iv ref s H H' ND Hs Hs' Hfb g.
  assert (K : forall k, In k ["action"; "position"; "reward"; "context"]%string -> has_key (s ref) k).
  { intros k Hk. rewrite Hfb. cbn in Hk. unfold has_key, has. intuition; subst k; eexists; reflexivity. }
  set (ests := map (obj_est iv) objs).
  assert (NE : map e_name ests = map obj_name objs) by (unfold ests; rewrite map_map; reflexivity).
  exists (mkOpe ref (est_dict ests) (any_model ests)). split; [unfold ope_init, meta_init; rewrite keys_ok by auto; reflexivity|].
  assert (Sh : shape (N3 (model l)) = shape (N3 (policy l))).
  { cbn [shape]. unfold model, policy. assert (0 < lg_K l)%nat by (pose proof (acc_a l H 0%nat (acc_n l H)); lia).
    rewrite !dim1_tab3, !dim2_tab3 by (auto; apply H). unfold tab3F, tab3. rewrite !tab_length. reflexivity. }
  assert (Hn : by_name (g_pea g)) by exact Logic.I.
  assert (Hf : inputs_fit g).
  { exists (N3 (policy l)). split; [|exact Logic.I]. split; [split; reflexivity|]. cbn [g_q g g_epscore g_iw g_embed g_pib all_given]. split; [|split; [|split; [exact Logic.I|split; exact Logic.I]]].
    - exists (N3 (model l)). split; [split; reflexivity|exact Sh].
    - exists (N1 (tabF (lg_n l) p)). split; [split; reflexivity|]. cbn [shape nth]. unfold tabF, policy, tab3F. rewrite !tab_length. reflexivity. }
  assert (Hc : ope_check g = Ok tt) by (destruct (ope_check_tests g Hn) as [([] & E & _)|[_ E]]; tauto).
  assert (ED : est_dict ests = map (fun e => (e_name e, e)) ests) by (apply est_dict_nodup; rewrite NE; auto).
  assert (HI : ope_inputs (mkOpe ref (est_dict ests) (any_model ests)) s g = Ok (map (fun e => (e_name e, log_kwargs l p)) ests)).
  { unfold ope_inputs. rewrite Hc. cbn [bind o_ref o_ests]. rewrite ED. apply (inputs_ok ests (ope_input (s ref) g) (fun _ => log_kwargs l p)). intros e He. rewrite Hfb. reflexivity. }
  assert (NM : any_model ests = false).
  { unfold any_model, ests. clear. induction objs as [|x objs IH]; cbn; auto. }
  split.
  - unfold ope_values. cbn [o_model]. rewrite NM. cbn [need_model andb raise_if bind]. rewrite <- NM at 1. rewrite HI. cbn [bind o_ests]. rewrite ED.
    rewrite (run_ok (fun e i => e_value e i) ests _ (fun _ => log_kwargs l p)) by (rewrite ?NE; auto; intros; apply (inputs_get ests (fun _ => log_kwargs l p)); auto).
    unfold each, ests. clear - H H' Hs Hs'. induction objs as [|x objs IH]; cbn [map mapM]; [reflexivity|]. cbn [obj_est e_value e_name].
    rewrite kind_kw_ok by (auto; destruct (snd x); auto). cbn [bind]. rewrite IH. reflexivity.
  - unfold ope_figure, figure. cbn [o_ests o_ref]. rewrite HI. cbn [bind]. rewrite ED.
    rewrite (run_ok (methods objs) ests _ (fun _ => log_kwargs l p)) by (rewrite ?NE; auto; intros; apply (inputs_get ests (fun _ => log_kwargs l p)); auto).
    assert (HM : forall x, In x objs -> methods objs (obj_est iv x) = kind_rounds (snd (fst x))).
    { intros x Hx. unfold methods. cbn [obj_est e_name]. clear - ND Hx. induction objs as [|y objs IH]; [destruct Hx|]. cbn [map] in ND. inversion ND as [|? ? N1 N2]; subst. cbn [find].
      destruct (String.eqb_spec (obj_name y) (obj_name x)) as [E|E]; [|destruct Hx as [->|Hx]; [congruence|auto]].
      destruct Hx as [->|Hx]; [reflexivity|]. exfalso. apply N1. rewrite E. apply in_map. auto. }
    assert (HC : exists cols, each ests (fun e => methods objs e (log_kwargs l p)) = Ok cols /\ (forall c, In c cols -> length (snd c) = lg_n l) /\
       map (fun c => (upper (fst c), bar (scaled None (snd c)))) cols = map (fun x => (upper (obj_name x), Fin (kind_spec (snd (fst x)) l))) objs).
    { unfold each, ests. revert HM. generalize (methods objs). intros M HM. clear - H Hs HM. induction objs as [|x objs IH]; [exists []; split; [reflexivity|split; [intros c []|reflexivity]]|].
      destruct (kind_rounds_ok l p (snd (fst x)) H Hs) as (f & Ef & Sf). destruct IH as (cols & Ec & Lc & Bc); [intros; apply HM; right; auto|].
      exists ((obj_name x, tabF (lg_n l) f) :: cols). cbn [map mapM]. rewrite HM by (left; auto). rewrite Ef. cbn [bind]. rewrite Ec. cbn [bind]. split; [reflexivity|]. split.
      - intros c [<-|Hc]; auto. cbn. unfold tabF. apply tab_length.
      - cbn [fst snd scaled]. rewrite bar_tabF by apply H. rewrite Sf. f_equal. exact Bc. }
    destruct HC as (cols & -> & Lc & Bc). cbn [bind]. rewrite (frame_ok (lg_n l)) by auto. cbn [bind base_of]. rewrite Bc. reflexivity.
Qed.

(** ** C156: what cannot be drawn *)

(** The classes of estimators_tuning.py have no [_estimate_round_rewards]: with one of them in charge of a name, no figure is drawn. *)
Theorem C156_tuning : forall s0 s ref ests o g rounds_of nm rel bars, ope_init s0 ref ests = Ok o -> In nm (map e_name ests) ->
  (forall e i, In e ests -> e_name e = nm -> rounds_of e i = Err AttributeError) -> ope_figure rounds_of o s g rel <> Ok bars.
Proof.
  intros s0 s ref ests o g rounds_of nm rel bars Hi Hn He. apply init_inv in Hi as ->. unfold ope_figure, figure. cbn [o_ests o_ref].
  destruct (ope_inputs _ s g) as [ins|]; cbn [bind]; [|discriminate].
  enough (G : forall cols out, run rounds_of (est_dict ests) (dgetitem ins) cols <> Ok out) by (destruct (run _ _ _ _) as [out|] eqn:E; cbn [bind]; [exfalso; eapply G; exact E|discriminate]).
  assert (X : exists e, In (nm, e) (est_dict ests) /\ In e ests /\ e_name e = nm).
  { destruct (est_dict_charge ests) as (es & E & [E1 E2] & _). assert (Hin : In nm (map e_name es)) by (rewrite E1; apply firsts_In; auto).
    apply in_map_iff in Hin as (e & En & Hin). exists e. rewrite E. split; [rewrite <- En; apply in_map_iff; exists e; auto|]. split; auto. destruct (E2 e Hin) as (b & a & -> & _). apply in_app_iff. right. left. auto. }
  destruct X as (e & Hd & Hin & En). clear - Hd Hin En He. induction (est_dict ests) as [|[k e'] d IH]; intros cols out; [destruct Hd|]. cbn [run].
  destruct (dgetitem ins k) as [i|]; cbn [bind]; [|discriminate]. destruct Hd as [[= -> ->]|Hd].
  - rewrite He by auto. discriminate.
  - destruct (rounds_of e' i); cbn [bind]; [|discriminate]. apply IH. auto.
Qed.

(** Rounds without a defined reward are left out of the bar, whereas the mean of all rounds is undefined. *)
Theorem C156_nan_rounds : forall n f bad k, (k < n)%nat -> bad k = true -> (exists j, (j < n)%nat /\ bad j = false) ->
  let col := tab n (fun i => if bad i then NaN else Fin (f i)) in
  nmean col = NaN /\
  bar col = Fin (sumn n (fun i => if bad i then 0 else f i) / sumn n (fun i => if bad i then 0 else 1)).
Proof.
  intros n f bad k Hk Hb (j & Hj & Gj) col. split.
  - unfold nmean. assert (E : nsum col = NaN); [|rewrite E; reflexivity]. unfold col, tab. assert (Hin : In k (seq 0 n)) by (apply in_seq; lia). revert Hin. induction (seq 0 n) as [|i l IH]; intros Hin; [destruct Hin|].
    cbn [map nsum fold_right]. fold (nsum (map (fun i => if bad i then NaN else Fin (f i)) l)). destruct Hin as [->|Hin]; [rewrite Hb; reflexivity|]. rewrite IH by auto. destruct (bad i); reflexivity.
  - set (good := filter (fun i => negb (bad i)) (seq 0 n)).
    assert (Ef : filter (fun x => negb (is_nan x)) col = map Fin (map f good)).
    { unfold col, tab, good. induction (seq 0 n) as [|i l IH]; [reflexivity|]. cbn [map filter]. destruct (bad i) eqn:E; cbn; rewrite IH; reflexivity. }
    unfold bar. rewrite Ef, map_Fin_tab. assert (Lg : (0 < length good)%nat).
    { assert (In j good) by (unfold good; apply filter_In; rewrite Gj; split; auto; apply in_seq; lia). destruct good; [contradiction|cbn; lia]. }
    rewrite nmean_tabF by (rewrite map_length; auto). rewrite map_length.
    assert (Es : forall (h : nat -> R), fold_right Rplus 0 (map h good) = sumn n (fun i => if bad i then 0 else h i)).
    { intros h. unfold good. clear. induction n as [|n IH]; [reflexivity|]. rewrite seq_S, filter_app, map_app, fold_right_app. cbn [Nat.add sumn filter]. rewrite <- IH.
      assert (A : forall l c, fold_right Rplus c (map h l) = fold_right Rplus 0 (map h l) + c) by (intros l c; induction l as [|x l IHl]; cbn; [lra|rewrite IHl; lra]).
      rewrite A. destruct (bad n); cbn; lra. }
    assert (Ec : INR (length good) = fold_right Rplus 0 (map (fun _ => 1) good)).
    { clear. induction good as [|i l IH]; [reflexivity|]. cbn [length map fold_right]. rewrite S_INR, IH. lra. }
    unfold avg. f_equal. rewrite Ec, Es. f_equal. rewrite <- Es. clear. induction good as [|i l IH]; [reflexivity|].
    cbn [map length]. rewrite sumn_S_first. cbn [nth fold_right]. rewrite IH. reflexivity.
Qed.

(** ** C156: several policies *)

Definition with_dist (g : ope_args) (d : pyval) : ope_args := mkArgs d (g_q g) (g_epscore g) (g_iw g) (g_embed g) (g_pib g) (g_pea g).

(** One row of the table: the estimator's name, and one column per policy done so far. *)
Definition row_ok (n : nat) (v : string -> string -> R) (pols : list string) (nm : string) (row : string * dict arr1) : Prop :=
  fst row = nm /\ Forall2 (matches n) (snd row) (map (fun p => (p, Fin (v nm p))) pols).

Lemma matches_get n (cols : dict arr1) (names : list string) w nm : Forall2 (matches n) cols (map (fun k => (k, w k)) names) -> In nm names ->
  exists c, dget cols nm = Some c /\ length c = n /\ nmean c = w nm.
Proof.
  revert cols. induction names as [|k names IH]; intros cols HF Hin; [destruct Hin|]. cbn [map] in HF. inversion HF as [|[k' c] ? cols' ? (E1 & E2 & E3) HF']; subst. cbn [fst snd] in *. subst k'. cbn [dget].
  destruct (String.eqb_spec k nm) as [->|N]; [exists c; auto|]. destruct Hin as [->|Hin]; [congruence|]. apply IH; auto.
Qed.

Lemma fst_matches n cols vs : Forall2 (matches n) cols vs -> map fst cols = map fst vs.
Proof. induction 1 as [|c v cols vs (E & _) _ IH]; cbn; [reflexivity|]. rewrite E, IH. reflexivity. Qed.

Lemma fill_ok {I} (rounds_of : est I -> I -> res arr1) n ests inputs v : (forall nm e, In (nm, e) ests -> mean_of_rounds rounds_of n e) ->
  forall pols done table, NoDup (done ++ map fst pols) ->
  (forall p d, In (p, d) pols -> (ins <- inputs d ;; run (fun e i => e_value e i) ests (dgetitem ins) []) = Ok (map (fun nm => (nm, Fin (v nm p))) (map fst ests))) ->
  Forall2 (row_ok n v done) (map fst ests) table ->
  exists table', fill_table rounds_of ests inputs pols table = Ok table' /\ Forall2 (row_ok n v (done ++ map fst pols)) (map fst ests) table'.
Proof.
  intros He. induction pols as [|[p d] pols IH]; intros done table ND Hv HT; cbn [fill_table map].
  - rewrite app_nil_r. eauto.
  - pose proof (Hv p d (or_introl eq_refl)) as E. destruct (inputs d) as [ins|]; cbn [bind] in *; [|discriminate].
    destruct (run_matches rounds_of n ests (dgetitem ins) He [] [] _ ltac:(constructor) E) as (cols & -> & HF). cbn [bind].
    cbn [map fst] in ND |- *. replace (done ++ p :: map fst pols) with ((done ++ [p]) ++ map fst pols) in * by (rewrite <- app_assoc; reflexivity).
    apply IH; auto; [intros; apply Hv; right; auto|].
    assert (Np : ~ In p done). { rewrite <- app_assoc in ND. apply NoDup_remove_2 in ND. intros H. apply ND, in_app_iff. auto. }
    assert (G : forall names tb, (forall nm, In nm names -> In nm (map fst ests)) -> Forall2 (row_ok n v done) names tb ->
      Forall2 (row_ok n v (done ++ [p])) names (map (fun row => (fst row, match dget cols (fst row) with Some c => dset (snd row) p c | None => snd row end)) tb)).
    { intros names tb Hs H. induction H as [|nm row names tb [E1 E2] H IHH]; cbn [map]; constructor; [|apply IHH; intros; apply Hs; right; auto].
      destruct (matches_get n cols (map fst ests) (fun nm => Fin (v nm p)) nm HF (Hs nm (or_introl eq_refl))) as (c & Ec & Lc & Mc). rewrite <- E1 in Ec. rewrite Ec. split; [exact E1|]. cbn [snd].
      rewrite dset_new.
      - rewrite map_app. apply Forall2_app; [exact E2|]. constructor; [split; [reflexivity|split; auto]|constructor].
      - rewrite (fst_matches n _ _ E2), map_map. cbn [fst]. rewrite map_id. exact Np. }
    apply G; auto.
Qed.

Lemma row_bars n v pols nm row : row_ok n v pols nm row -> frame (snd row) = Ok tt /\
  map (fun c => (fst c, bar (scaled None (snd c)))) (snd row) = map (fun p => (p, Fin (v nm p))) pols /\
  forall b, b <> 0 -> map (fun c => (fst c, bar (scaled (Some (Fin b)) (snd c)))) (snd row) = map (fun p => (p, Fin (v nm p / b))) pols.
Proof.
  intros [_ HF]. split; [|split].
  - apply (frame_ok n). revert HF. generalize (snd row). induction pols as [|p pols IH]; intros r HF c Hc; inversion HF as [|? ? ? ? (E1 & E2 & E3) HF']; subst; [destruct Hc|destruct Hc as [<-|Hc]; eauto].
  - revert HF. generalize (snd row). induction pols as [|p pols IH]; intros r HF; inversion HF as [|? ? ? ? (E1 & E2 & E3) HF']; subst; [reflexivity|]. cbn [map]. rewrite IH by auto. cbn [fst snd] in *. rewrite E1.
    destruct (nmean_Fin_inv _ _ E3) as (m & f & Hm & Ec & ->). rewrite Ec. cbn [scaled]. rewrite bar_tabF by auto. reflexivity.
  - intros b Nb. revert HF. generalize (snd row). induction pols as [|p pols IH]; intros r HF; inversion HF as [|? ? ? ? (E1 & E2 & E3) HF']; subst; [reflexivity|]. cbn [map]. rewrite IH by auto. cbn [fst snd] in *. rewrite E1.
    destruct (nmean_Fin_inv _ _ E3) as (m & f & Hm & Ec & ->). rewrite Ec, scaled_tabF, bar_tabF by auto. do 3 f_equal. unfold avg. rewrite sumn_div. assert (INR m <> 0) by (apply not_0_INR; lia). field. auto.
Qed.

Lemma panels_ok n v pols m fb names table : Forall2 (row_ok n v pols) names table -> forall i, (i + length names <= m)%nat ->
  panels m i fb false table = Ok (map (fun nm => (upper nm, map (fun p => (p, Fin (v nm p))) pols)) names) /\
  forall a b, has fb "reward" (PArr a) -> nmean (flatten a) = Fin b -> b <> 0 ->
    panels m i fb true table = Ok (map (fun nm => (upper nm, map (fun p => (p, Fin (v nm p / b))) pols)) names).
Proof.
  induction 1 as [|nm row names table HR HF IH]; intros i Hi; [split; reflexivity|]. cbn [length] in Hi. destruct (IH (i + 1)%nat ltac:(lia)) as [I1 I2].
  destruct (row_bars n v pols nm row HR) as (Fr & B1 & B2). destruct row as [k row]. destruct HR as [Ek _]. cbn [fst snd] in *. subst k. cbn [panels map]. rewrite Fr. cbn [bind].
  assert (Hlt : (m <? i + 1)%nat = false) by (apply Nat.ltb_ge; lia). split.
  - cbn [base_of bind]. rewrite Hlt. cbn [raise_if bind]. rewrite I1. cbn [bind]. rewrite B1. reflexivity.
  - intros a b Ha Hb Nb. unfold base_of, dgetitem. pose proof Ha as Ha'. unfold has in Ha'. rewrite Ha'. cbn [bind val_mean]. rewrite Hb, Hlt. cbn [raise_if bind]. rewrite (I2 a b Ha Hb Nb). cbn [bind]. rewrite (B2 b Nb). reflexivity.
Qed.

Lemma panels_many {fb rel} m table : forall i, (m < i + length table)%nat -> (0 < length table)%nat -> forall ps, panels m i fb rel table <> Ok ps.
Proof.
  induction table as [|[nm row] table IH]; intros i Hi Hl ps; [cbn in Hl; lia|]. cbn [panels length] in *. destruct (frame row) as [|]; cbn [bind]; [|discriminate].
  destruct (base_of fb rel); cbn [bind]; [|discriminate]. destruct (Nat.ltb_spec m (i + 1)) as [Hm|Hm]; cbn [raise_if bind]; [discriminate|].
  destruct (panels m (i + 1) fb rel table) eqn:E; cbn [bind]; [|discriminate]. exfalso. refine (IH (i + 1)%nat _ _ _ E); lia.
Qed.

Lemma Forall2_len {A B} (P : A -> B -> Prop) l l' : Forall2 P l l' -> length l = length l'.
Proof. induction 1; cbn; congruence. Qed.

(** One panel per estimator, one bar per policy, showing the estimates of the policies; but only if there are at least as many
    policies as estimators, and as many names as policies. *)
Theorem C156_panels : forall n s0 s ref ests o g rounds_of names dists v, ope_init s0 ref ests = Ok o -> NoDup (map e_name ests) -> (forall e, In e ests -> mean_of_rounds rounds_of n e) ->
  NoDup names -> length names = length dists ->
  (forall p d, In (p, d) (combine names dists) -> ope_values o s (with_dist g d) = Ok (map (fun e => (e_name e, Fin (v (e_name e) p))) ests)) ->
  ((length ests <= length dists)%nat ->
     ope_panels rounds_of o s g names dists false = Ok (map (fun e => (upper (e_name e), map (fun p => (p, Fin (v (e_name e) p))) names)) ests) /\
     forall a b, has (s ref) "reward" (PArr a) -> nmean (flatten a) = Fin b -> b <> 0 ->
       ope_panels rounds_of o s g names dists true = Ok (map (fun e => (upper (e_name e), map (fun p => (p, Fin (v (e_name e) p / b))) names)) ests)) /\
  ((length dists < length ests)%nat -> forall rel ps, ope_panels rounds_of o s g names dists rel <> Ok ps).
Proof.
  intros n s0 s ref ests o g rounds_of names dists v Hi NE He NP HL Hv. apply init_inv in Hi as ->. unfold ope_panels, panels_figure. cbn [o_ests o_ref]. rewrite HL, Nat.eqb_refl. cbn [negb raise_if bind].
  assert (ED : map fst (est_dict ests) = map e_name ests) by (rewrite est_dict_nodup by auto; rewrite map_map; reflexivity).
  assert (CF : map fst (combine names dists) = names).
  { clear - HL. revert dists HL. induction names as [|p names IH]; intros [|d dists] HL; cbn in *; auto; try lia. rewrite IH by lia. reflexivity. }
  destruct (fill_ok rounds_of n (est_dict ests) (fun d => ope_inputs (mkOpe ref (est_dict ests) (any_model ests)) s (mkArgs d (g_q g) (g_epscore g) (g_iw g) (g_embed g) (g_pib g) (g_pea g))) v
    ltac:(intros nm e Hin; apply He; eapply dict_in; eauto) (combine names dists) [] (map (fun kv => (fst kv, [])) (est_dict ests))) as (table & ET & HT).
  - cbn [app]. rewrite CF. auto.
  - intros p d Hin. rewrite ED, map_map. generalize (Hv p d Hin). unfold ope_values. destruct (need_model _ _); cbn [bind]; [|discriminate]. auto.
  - clear. induction (est_dict ests) as [|kv d IH]; cbn [map]; constructor; auto. split; [reflexivity|constructor].
  - rewrite ET. cbn [bind]. cbn [app] in HT. rewrite CF, ED in HT. split.
    + intros Hle. destruct (panels_ok n v names (length dists) (s ref) _ table HT 0%nat) as [P1 P2]; [rewrite map_length; lia|]. split.
      * rewrite P1, map_map. reflexivity.
      * intros a b Ha Hb Nb. rewrite (P2 a b Ha Hb Nb), map_map. reflexivity.
    + intros Hlt rel ps. apply panels_many; apply Forall2_len in HT; rewrite map_length in HT; lia.
Qed.
Theorem C156_panels_names : forall s g o rounds_of names dists rel, length names <> length dists -> ope_panels rounds_of o s g names dists rel = Err ValueError.
Proof. intros. unfold ope_panels, panels_figure. destruct (Nat.eqb_spec (length names) (length dists)); [contradiction|reflexivity]. Qed.

(** ** C156: slates *)

(** What matplotlib draws for a height and a half-length. *)
Definition segment (m h : R) : R * R := (m - h, m + h).

(** Slates: the bars are the interval means; the error bars reach [upper - lower] to either side, so they are twice as long as the
    interval and cover it. *)
Theorem C156_slate : forall o s g alpha n_boot seed vs (rows : list (string * (R * R * R))),
  slate_summary o s g alpha n_boot seed = Ok (vs, map (fun kv => (fst kv, {| ci_mean := Fin (fst (fst (snd kv))); ci_lower := Fin (snd (fst (snd kv))); ci_upper := Fin (snd (snd kv)) |})) rows) ->
  (forall nm m l u, In (nm, (m, l, u)) rows -> l <= m <= u) ->
  slate_figure o s g alpha n_boot seed false = Ok (map (fun kv => (fst kv, (Fin (fst (fst (snd kv))), Fin (snd (snd kv) - snd (fst (snd kv)))))) rows) /\
  (forall r ids, has (s (o_ref o)) "reward" (PArr r) -> has (s (o_ref o)) "slate_id" (PArr (NI ids)) -> forall t, nsum (flatten r) = Fin t -> t <> 0 -> ids <> [] ->
     let b := t / INR (length (nodup Z.eq_dec ids)) in
     slate_figure o s g alpha n_boot seed true = Ok (map (fun kv => (fst kv, (Fin (fst (fst (snd kv)) / b), Fin ((snd (snd kv) - snd (fst (snd kv))) / b)))) rows)) /\
  (forall nm m l u, In (nm, (m, l, u)) rows -> let d := segment m (u - l) in
     snd d - fst d = 2 * (u - l) /\ fst d <= l /\ u <= snd d /\ (d = (l, u) <-> l = u)).
Proof.
  intros o s g alpha n_boot seed vs rows Hs Hr. unfold slate_figure. rewrite Hs. cbn [bind snd]. split; [|split].
  - f_equal. rewrite map_map. apply map_ext_in. intros [nm [[m l] u]] Hin. cbn. specialize (Hr nm m l u Hin). rewrite Rabs_right by lra. reflexivity.
  - intros r ids Hrw Hid t Ht Nt Ni. set (b := t / INR (length (nodup Z.eq_dec ids))). unfold dgetitem. unfold has in Hrw, Hid. rewrite Hrw, Hid. cbn [bind val_sum n_slates]. rewrite Ht.
    assert (NU : INR (length (nodup Z.eq_dec ids)) <> 0).
    { apply not_0_INR. destruct ids as [|x ids]; [congruence|]. intros E. apply length_zero_iff_nil in E. assert (X : In x (nodup Z.eq_dec (x :: ids))) by (apply nodup_In; left; auto). rewrite E in X. destruct X. }
    rewrite unique_count. unfold nnat. rewrite ndiv_Fin by auto. fold b. assert (Nb : b <> 0) by (unfold b; apply Rmult_integral_contrapositive_currified; [auto|apply Rinv_neq_0_compat; auto]).
    f_equal. rewrite !map_map. apply map_ext_in. intros [nm [[m l] u]] Hin. cbn [fst snd ci_mean ci_lower ci_upper nsub nabs]. specialize (Hr nm m l u Hin).
    replace (nabs (nsub (Fin u) (Fin l))) with (Fin (u - l)) by (cbn; rewrite Rabs_right by lra; reflexivity). rewrite !ndiv_Fin by auto. reflexivity.
  - intros nm m l u Hin. specialize (Hr nm m l u Hin). unfold segment. cbn [fst snd]. split; [lra|]. split; [lra|]. split; [lra|]. split; [intros [= E1 E2]; lra|intros ->; f_equal; lra].
Qed.

(** ** Cases *)

(** Two IPW objects, one told to use the estimated propensities (all 1 here): the values differ, the bars do not. *)
Example C156_pscore_example : let l := ex_log in let p := fun _ : nat => 1 in
  accepted l /\ accepted (with_pscore l p) /\ sumn (lg_n l) (weight l) <> 0 /\ sumn (lg_n l) (weight (with_pscore l p)) <> 0 /\
  kind_spec (KIpw None) l = 7 / 6 /\ kind_spec (KIpw None) (with_pscore l p) = 7 / 12.
Proof.
  cbv zeta. pose proof ex_log_accepted as H. split; [exact H|]. split; [constructor; try apply H; intros; cbn; lra|].
  unfold weight, kind_spec, spec_ipw, clip, with_pscore, avg, ex_log, weight. cbn. repeat split; try lra. all: intros E; lra.
Qed.

(** A constant estimator with constant rounds meets the hypotheses of [C156_bars], [C156_multi], [C156_continuous] and [C156_panels]. *)
Definition vx_rounds {I} (e : est I) (_ : I) : res arr1 := Ok [Fin 1; Fin 3].
Definition vx_est {I} (nm : string) : est I := mkEst nm false (fun _ => Ok (Fin 2)) (fun _ _ _ _ => Err ValueError).
Lemma vx_mean {I} nm : mean_of_rounds (@vx_rounds I) 2 (vx_est nm).
Proof.
  intros i v [= <-]. exists [Fin 1; Fin 3]. split; [reflexivity|]. split; [reflexivity|]. change [Fin 1; Fin 3] with (tabF 2 (fun i => if Nat.eqb i 0 then 1 else 3)). rewrite nmean_tabF by lia. unfold avg, sumn. cbn. f_equal. lra.
Qed.
Definition vx_store : store := fun _ => log_feedback ex_log.
Definition vx_args : ope_args := mkArgs (PArr (N3 (policy ex_log))) (AVal PNone) (AVal PNone) (AVal PNone) (AVal PNone) (AVal PNone) (AVal PNone).
Example C156_bars_example : exists o, ope_init vx_store 0 [vx_est "a"; vx_est "b"] = Ok o /\
  ope_values o vx_store vx_args = Ok (map (fun kv => (fst kv, Fin (snd kv))) [("a"%string, 2); ("b"%string, 2)]) /\
  ope_figure vx_rounds o vx_store vx_args false = Ok [("A"%string, Fin 2); ("B"%string, Fin 2)] /\
  ope_panels vx_rounds o vx_store vx_args ["x"; "y"]%string [g_dist vx_args; g_dist vx_args] false
    = Ok [("A"%string, [("x"%string, Fin 2); ("y"%string, Fin 2)]); ("B"%string, [("x"%string, Fin 2); ("y"%string, Fin 2)])] /\
  ope_panels vx_rounds o vx_store vx_args ["x"]%string [g_dist vx_args] false = Err ValueError.
Proof.
  assert (B : bar (scaled None [Fin 1; Fin 3]) = Fin 2).
  { cbn [scaled]. change [Fin 1; Fin 3] with (tabF 2 (fun i => if Nat.eqb i 0 then 1 else 3)). rewrite bar_tabF by lia. unfold avg, sumn. cbn. f_equal. lra. }
  assert (V : forall d, In d [g_dist vx_args] -> ope_values (mkOpe 0 (est_dict [vx_est "a"; vx_est "b"]) false) vx_store (with_dist vx_args d) = Ok (map (fun e => (e_name e, Fin 2)) [@vx_est ope_in "a"; vx_est "b"])).
  { intros d [<-|[]]. reflexivity. }
  exists (mkOpe 0 (est_dict [vx_est "a"; vx_est "b"]) false). split; [reflexivity|]. split; [reflexivity|].
  assert (M : forall e : est ope_in, In e [vx_est "a"; vx_est "b"] -> mean_of_rounds vx_rounds 2 e) by (intros e [<-|[<-|[]]]; apply vx_mean).
  assert (ND : NoDup (map e_name [@vx_est ope_in "a"; vx_est "b"])) by (cbn; repeat constructor; cbn; intuition discriminate). split.
  - exact (proj1 (C156_bars 2 vx_store vx_store 0%nat [vx_est "a"; vx_est "b"] _ vx_args vx_rounds [("a"%string, 2); ("b"%string, 2)] eq_refl M eq_refl)).
  - split.
    + assert (NP : NoDup ["x"; "y"]%string) by (repeat constructor; cbn; intuition discriminate).
      assert (V2 : forall p d, In (p, d) (combine ["x"; "y"]%string [g_dist vx_args; g_dist vx_args]) ->
        ope_values (mkOpe 0 (est_dict [vx_est "a"; vx_est "b"]) false) vx_store (with_dist vx_args d) = Ok (map (fun e => (e_name e, Fin ((fun _ _ => 2) (e_name e) p))) [@vx_est ope_in "a"; vx_est "b"])).
      { intros p d Hin. apply V. apply in_combine_r in Hin. destruct Hin as [<-|[<-|[]]]; left; reflexivity. }
      exact (proj1 (proj1 (C156_panels 2 vx_store vx_store 0%nat [vx_est "a"; vx_est "b"] _ vx_args vx_rounds ["x"; "y"]%string [g_dist vx_args; g_dist vx_args] (fun _ _ => 2) eq_refl ND M NP eq_refl V2) ltac:(cbn; lia))).
    + reflexivity.
Qed.

(** Tuning class in charge of a name; a column with an undefined round; a slate interval. *)
Example C156_tuning_example : exists o, ope_init vx_store 0 [vx_est "a"] = Ok o /\ ope_figure (fun _ _ => Err AttributeError) o vx_store vx_args false = Err AttributeError.
Proof. eexists. split; reflexivity. Qed.
Definition sx_est : est slate_in := mkEst "e" false (fun _ => Ok (Fin 2)) (fun _ _ _ _ => Ok {| ci_mean := Fin 2; ci_lower := Fin 1; ci_upper := Fin 4 |}).
Definition sx_store : store := fun _ => [("slate_id", PArr (NI [0; 0; 1; 1]%Z)); ("context", PNone); ("action", PNone); ("reward", PArr (N1 [Fin 1; Fin 0; Fin 1; Fin 1])); ("position", PNone)]%string.
Example C156_slate_example : exists o vs, slate_init sx_store 0 [sx_est] = Ok o /\
  slate_summary o sx_store (mkSArgs (PArr (N1 [])) PNone PNone PNone PNone) (Fin (1 / 20)) 100 None
    = Ok (vs, map (fun kv => (fst kv, {| ci_mean := Fin (fst (fst (snd kv))); ci_lower := Fin (snd (fst (snd kv))); ci_upper := Fin (snd (snd kv)) |})) [("e"%string, (2, 1, 4))]) /\
  1 <= 2 <= 4 /\ segment 2 (4 - 1) = (2 - (4 - 1), 2 + (4 - 1)).
Proof.
  eexists _, _. split; [reflexivity|]. split; [|split; [lra|reflexivity]].
  unfold slate_summary, slate_values, slate_intervals.
  rewrite (ci_accepts (Fin (1 / 20)) 100); [reflexivity|]. split; [exists (1 / 20); split; [reflexivity|lra]|lia].
Qed.

(** The labels: the small letters become capitals, everything else stays. *)
Theorem C156_labels : forall s i,
  String.length (upper s) = String.length s /\
  (forall k c, nth_error (list_ascii_of_string "abcdefghijklmnopqrstuvwxyz") k = Some c -> String.get i s = Some c ->
     String.get i (upper s) = nth_error (list_ascii_of_string "ABCDEFGHIJKLMNOPQRSTUVWXYZ") k) /\
  (forall c, ~ In c (list_ascii_of_string "abcdefghijklmnopqrstuvwxyz") -> String.get i s = Some c -> String.get i (upper s) = Some c).
Proof.
  intros s i.
  assert (G : forall s i, String.get i (upper s) = match String.get i s with Some c => Some (upper_char c) | None => None end).
  { clear s i. induction s as [|c s IH]; intros [|i]; cbn; auto. }
  split; [|split].
  - clear i. induction s as [|c s IH]; cbn; [reflexivity|]. rewrite IH. reflexivity.
  - intros k c Hk Hc. rewrite G, Hc. do 26 (destruct k as [|k]; [cbn in Hk; injection Hk as <-; reflexivity|]). cbn in Hk. destruct k; discriminate Hk.
  - intros c Hn Hc. rewrite G, Hc. f_equal. destruct c as [b0 b1 b2 b3 b4 b5 b6 b7].
    destruct b7, b6, b5, b4, b3, b2, b1, b0; try reflexivity; exfalso; apply Hn; cbn; tauto.
Qed.

(** Estimators that report different numbers of rounds do not fit in one table. *)
Theorem C156_unequal_columns : forall {I} (rounds_of : est I -> I -> res arr1) n1 n2 e1 e2 fb ins i1 i2 c1 c2 rel,
  n1 <> n2 -> dget ins n1 = Some i1 -> dget ins n2 = Some i2 -> rounds_of e1 i1 = Ok c1 -> rounds_of e2 i2 = Ok c2 -> length c1 <> length c2 ->
  figure rounds_of [(n1, e1); (n2, e2)] fb (Ok ins) rel = Err ValueError.
Proof.
  intros I rounds_of n1 n2 e1 e2 fb ins i1 i2 c1 c2 rel Hn D1 D2 R1 R2 HL. unfold figure. cbn [bind run]. unfold dgetitem. rewrite D1. cbn [bind]. rewrite R1. cbn [bind]. rewrite D2. cbn [bind]. rewrite R2. cbn [bind].
  cbn [dset]. rewrite (proj2 (String.eqb_neq n1 n2)) by congruence. unfold frame. cbn [forallb nth snd]. rewrite Nat.eqb_refl. cbn [andb].
  rewrite (proj2 (Nat.eqb_neq (length c2) (length c1))) by congruence. reflexivity.
Qed.

Print Assumptions C156_labels.
Print Assumptions C156_unequal_columns.
Print Assumptions C156_bars.
Print Assumptions C156_multi.
Print Assumptions C156_continuous.
Print Assumptions C156_logged_pscore.
Print Assumptions C156_tuning.
Print Assumptions C156_nan_rounds.
Print Assumptions C156_panels.
Print Assumptions C156_panels_names.
Print Assumptions C156_slate.
