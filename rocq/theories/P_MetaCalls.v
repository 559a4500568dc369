(** * P_MetaCalls: the front ends on concrete array shapes, with keys deleted after construction, and with
    values of the wrong kind (C51, C105). *)

From Coq Require Import String Reals List ZArith Lia Lra Bool.
From Verif Require Import Num NpList M_Utils M_Slate M_Estimators M_Meta S_Base S_Slate S_Meta S_Estimators S_Examples
  L_Num L_Base L_Utils L_Slate L_SlateEst L_Estimators L_Examples L_Meta P_Estimators P_Meta.
Import ListNotations.
Open Scope R_scope.

(** ** C51: which shapes are accepted *)

(** One call with every optional input given: the policy is [n x K x L]. *)
Definition sized_args (n K L n1 K1 L1 n2 n3 n4 d4 n5 K5 L5 K6 C6 D6 : nat) f q p w e b m nm : ope_args :=
  mkArgs (PArr (N3 (tab3F n K L f))) (AVal (PArr (N3 (tab3F n1 K1 L1 q)))) (AVal (PArr (N1 (tabF n2 p))))
    (AVal (PArr (N1 (tabF n3 w)))) (AVal (PArr (N2 (tab2F n4 d4 e)))) (AVal (PArr (N3 (tab3F n5 K5 L5 b))))
    (ADict [(nm, PArr (N3 (tab3F K6 C6 D6 m)))]).

Lemma shape_N3 n K L f : (0 < n)%nat -> (0 < K)%nat -> shape (N3 (tab3F n K L f)) = [n; K; L].
Proof. intros. cbn [shape]. rewrite dim1_tab3, dim2_tab3 by auto. unfold tab3F. rewrite tab_length. reflexivity. Qed.
Lemma shape_N2 n k f : (0 < n)%nat -> shape (N2 (tab2F n k f)) = [n; k].
Proof.
  intros. cbn [shape]. unfold tab2F. rewrite tab_length. destruct n; [lia|]. rewrite tab_S_first. cbn [nth]. unfold tabF. rewrite tab_length. reflexivity.
Qed.
Lemma shape_N1 n f : shape (N1 (tabF n f)) = [n].
Proof. cbn [shape]. unfold tabF. rewrite tab_length. reflexivity. Qed.

Lemma rows_iff dim rows a sh : shape a = sh -> length sh = dim -> (rows_ok dim rows (PArr a) <-> nth 0 sh 0%nat = rows).
Proof.
  intros E Hl. split.
  - intros (a' & [H1 H2] & H3). injection H1 as <-. rewrite E in H3. exact H3.
  - intros H. exists a. repeat split; rewrite E; auto.
Qed.

(** The call is accepted exactly when the reward model has the policy's three dimensions, the propensities, weights,
    embeddings and behaviour policy have one row per round, and the embedding distribution has one row per action. *)
Theorem C51_shape_rules : forall s0 s ref ests o n K L n1 K1 L1 n2 n3 n4 d4 n5 K5 L5 K6 C6 D6 f q p w e b m nm,
  ope_init s0 ref ests = Ok o ->
  (forall k, In k ["action"; "position"; "reward"; "context"]%string -> has_key (s ref) k) ->
  List.Forall (fun x => (0 < x)%nat) [n; K; L; n1; K1; L1; n2; n3; n4; d4; n5; K5; L5; K6; C6; D6] ->
  let g := sized_args n K L n1 K1 L1 n2 n3 n4 d4 n5 K5 L5 K6 C6 D6 f q p w e b m nm in
  (n1 = n /\ K1 = K /\ L1 = L /\ n2 = n /\ n3 = n /\ n4 = n /\ n5 = n /\ K6 = K ->
     exists es kw, in_charge ests es /\ (forall nm, ope_kwargs (s ref) g nm (kw nm)) /\
       ope_values o s g = each es (fun e => e_value e (kw (e_name e)))) /\
  (~ (n1 = n /\ K1 = K /\ L1 = L /\ n2 = n /\ n3 = n /\ n4 = n /\ n5 = n /\ K6 = K) -> ope_values o s g = Err ValueError).
Proof.
  intros s0 s ref ests o n K L n1 K1 L1 n2 n3 n4 d4 n5 K5 L5 K6 C6 D6 f q p w e b m nm Ho Hk Hp g.
  rewrite !Forall_cons_iff in Hp. destruct Hp as (P1 & P2 & P3 & P4 & P5 & P6 & P7 & P8 & P9 & P10 & P11 & P12 & P13 & P14 & P15 & P16 & _).
  assert (Hiff : inputs_fit g <-> (n1 = n /\ K1 = K /\ L1 = L /\ n2 = n /\ n3 = n /\ n4 = n /\ n5 = n /\ K6 = K)).
  { unfold inputs_fit, args_fit. cbn [g sized_args g_dist g_q g_epscore g_iw g_embed g_pib g_pea all_given].
    assert (Sd : shape (N3 (tab3F n K L f)) = [n; K; L]) by (apply shape_N3; auto).
    split.
    - intros (dist & ((E & _) & H1 & H2 & H3 & H4 & H5) & H6). injection E as <-.
      destruct H1 as (a & [Ea _] & Hs). injection Ea as <-. rewrite shape_N3, Sd in Hs by auto. injection Hs as -> -> ->.
      rewrite Sd in *. cbn [nth] in *.
      apply (rows_iff 1 n _ _ (shape_N1 n2 p) eq_refl) in H2. apply (rows_iff 1 n _ _ (shape_N1 n3 w) eq_refl) in H3.
      apply (rows_iff 2 n _ _ (shape_N2 n4 d4 e P9) eq_refl) in H4. apply (rows_iff 3 n _ _ (shape_N3 n5 K5 L5 b P11 P12) eq_refl) in H5.
      specialize (H6 nm _ (or_introl eq_refl)). apply (rows_iff 3 K _ _ (shape_N3 K6 C6 D6 m P14 P15) eq_refl) in H6.
      cbn [nth] in *. repeat split; auto.
    - intros (-> & -> & -> & -> & -> & -> & -> & ->). exists (N3 (tab3F n K L f)). rewrite Sd. cbn [nth].
      repeat split.
      + exists (N3 (tab3F n K L q)). repeat split; rewrite shape_N3 by auto; rewrite ?Sd; reflexivity.
      + apply (rows_iff 1 n _ _ (shape_N1 n p) eq_refl). reflexivity.
      + apply (rows_iff 1 n _ _ (shape_N1 n w) eq_refl). reflexivity.
      + apply (rows_iff 2 n _ _ (shape_N2 n d4 e P9) eq_refl). reflexivity.
      + apply (rows_iff 3 n _ _ (shape_N3 n K5 L5 b P11 P12) eq_refl). reflexivity.
      + intros nm' v [Hin|[]]. injection Hin as <- <-. apply (rows_iff 3 K _ _ (shape_N3 K C6 D6 m P14 P15) eq_refl). reflexivity. }
  split.
  - intros H. apply Hiff in H. destruct (C51_estimates s0 s ref ests o g Ho Hk I H) as (es & kw & H1 & H2 & H3).
    exists es, kw. split; [auto|]. split; [auto|]. apply H3. intros _. discriminate.
  - intros H. apply (proj1 (C51_rejects s0 s ref ests o g Ho)); [exact I|]. rewrite Hiff. exact H.
Qed.

(** ** C51: a key deleted from the caller's dictionary after construction *)

Lemma missing_get (fb : dict pyval) k : ~ has_key fb k -> dgetitem fb k = Err KeyError.
Proof. intros H. unfold dgetitem. destruct (dget fb k) eqn:E; auto. exfalso. apply H. eexists. exact E. Qed.
Lemma get_cases (fb : dict pyval) k : (exists v, dgetitem fb k = Ok v) \/ dgetitem fb k = Err KeyError.
Proof. unfold dgetitem. destruct (dget fb k); eauto. Qed.

Lemma est_dict_nonempty {I} (ests : list (est I)) : ests <> [] -> exists x r, est_dict ests = x :: r.
Proof.
  intros H. destruct (est_dict_charge ests) as (es & E & [Hn _] & _). rewrite E. destruct ests as [|e0 ests]; [congruence|].
  cbn [map firsts] in Hn. destruct es as [|x es]; [discriminate|]. cbn [map]. eauto.
Qed.

Ltac missing Hk Hn :=
  cbn [In] in Hk; repeat destruct Hk as [Hk|Hk]; try contradiction; subst;
  repeat match goal with |- context [dgetitem ?fb ?k] =>
    first [ match goal with H : ~ has_key fb k |- _ => rewrite (missing_get fb k H) end
          | let v := fresh "v" in let E := fresh "E" in destruct (get_cases fb k) as [[v E]|E]; rewrite E ]; cbn [bind]; auto end.

Theorem C51_key_deleted : forall s0 s ref ests o g k, ope_init s0 ref ests = Ok o -> ests <> [] ->
  ((exists e, In e ests /\ e_model e = true) -> g_q g <> AVal PNone) -> by_name (g_pea g) -> inputs_fit g ->
  In k ["action"; "position"; "reward"; "context"]%string -> ~ has_key (s ref) k -> ope_values o s g = Err KeyError.
Proof.
  intros s0 s ref ests o g k Ho Hne Hm Hn Hf Hk Hmiss. apply init_inv in Ho as ->.
  assert (Hc : ope_check g = Ok tt) by (destruct (ope_check_tests g Hn) as [([] & H & _)|[_ H]]; tauto).
  unfold ope_values, ope_inputs. cbn [o_model o_ref o_ests].
  rewrite need_ok by (intros H; apply existsb_exists in H as (e & ? & ?); apply Hm; eauto). rewrite Hc. cbn [bind].
  destruct (est_dict_nonempty ests Hne) as (x & r & ->). cbn [mapM].
  assert (E : ope_input (s ref) g (fst x) = Err KeyError) by (unfold ope_input; missing Hk Hmiss).
  rewrite E. reflexivity.
Qed.

Theorem C51_multi_key_deleted : forall s0 s ref ests o g k, multi_init s0 ref ests = Ok o -> ests <> [] ->
  ((exists e, In e ests /\ e_model e = true) -> h_q g <> AVal PNone) -> multi_fits g ->
  In k ["action"; "position"; "reward"]%string -> ~ has_key (s ref) k -> multi_values o s g = Err KeyError.
Proof.
  intros s0 s ref ests o g k Ho Hne Hm Hf Hk Hmiss. apply init_inv in Ho as ->.
  assert (Hc : multi_check g = Ok tt) by (destruct (multi_check_tests g) as [([] & H & _)|[_ H]]; tauto).
  unfold multi_values, multi_inputs. cbn [o_model o_ref o_ests]. rewrite model_needed by auto. rewrite Hc. cbn [bind].
  destruct (est_dict_nonempty ests Hne) as (x & r & ->). cbn [mapM].
  assert (E : multi_input (s ref) g (fst x) = Err KeyError) by (unfold multi_input; missing Hk Hmiss).
  rewrite E. reflexivity.
Qed.

(** ** C105: rewards of any shape, and rewards that are no array *)

(** A matrix or cube of rewards is averaged over all its entries. *)
Theorem C105_matrix : forall o s g alpha n_boot seed n k r, has (s (o_ref o)) "reward" (PArr (N2 (tab2F n k r))) ->
  (0 < n)%nat -> (0 < k)%nat ->
  reports_relative (ope_values o s g) (ope_intervals o s g alpha n_boot seed) (ope_summary o s g alpha n_boot seed)
    (sumn n (fun i => sumn k (fun j => r i j)) / (INR n * INR k)).
Proof.
  intros o s g alpha n_boot seed n k r H Hn Hk.
  replace (sumn n (fun i => sumn k (fun j => r i j)) / (INR n * INR k)) with (avg (n * k) (fun j => r (j / k)%nat (j mod k)%nat)).
  - apply C105_relative with (1 := H); [|lia]. cbn [flatten]. unfold tab2F, tabF. rewrite (concat_tab n k (fun i j => Fin (r i j))). reflexivity.
  - unfold avg. rewrite mult_INR, sumn_block. f_equal. apply sumn_ext. intros i Hi. apply sumn_ext. intros j Hj.
    destruct (divmod_block i j k Hj) as [-> ->]. reflexivity.
Qed.
Theorem C105_cube : forall o s g alpha n_boot seed n k l r, has (s (o_ref o)) "reward" (PArr (N3 (tab3F n k l r))) ->
  (0 < n)%nat -> (0 < k)%nat -> (0 < l)%nat ->
  reports_relative (ope_values o s g) (ope_intervals o s g alpha n_boot seed) (ope_summary o s g alpha n_boot seed)
    (sumn n (fun i => sumn k (fun j => sumn l (fun h => r i j h))) / (INR n * INR k * INR l)).
Proof.
  intros o s g alpha n_boot seed n k l r H Hn Hk Hl.
  set (F := fun j => r (j / l / k)%nat ((j / l) mod k)%nat (j mod l)%nat).
  replace (sumn n (fun i => sumn k (fun j => sumn l (fun h => r i j h))) / (INR n * INR k * INR l)) with (avg (n * k * l) F).
  - apply C105_relative with (1 := H); [|lia]. cbn [flatten]. unfold tab3F, tab2F, tabF.
    rewrite (concat_tab n k (fun i j => tab l (fun h => Fin (r i j h)))).
    rewrite (concat_tab (n * k) l (fun i h => Fin (r (i / k)%nat (i mod k)%nat h))). reflexivity.
  - unfold avg. rewrite !mult_INR, sumn_block, sumn_block. f_equal. apply sumn_ext. intros i Hi. apply sumn_ext. intros j Hj.
    apply sumn_ext. intros h Hh. unfold F. destruct (divmod_block (i * k + j) h l Hh) as [-> ->]. destruct (divmod_block i j k Hj) as [-> ->]. reflexivity.
Qed.

(** A reward entry that is no array has no mean. *)
Theorem C105_no_array : forall o s g alpha n_boot seed v vs ci, has (s (o_ref o)) "reward" v -> (forall a, v <> PArr a) ->
  ope_values o s g = Ok vs -> ope_intervals o s g alpha n_boot seed = Ok ci ->
  ope_summary o s g alpha n_boot seed = Err AttributeError.
Proof.
  intros o s g alpha n_boot seed v vs ci H Hv E1 E2. unfold ope_summary. rewrite E1, E2. cbn [bind]. unfold dgetitem.
  unfold has in H. rewrite H. cbn [bind]. destruct v; auto. exfalso. eapply Hv. reflexivity.
Qed.

(** ** C51: actions that are no integers *)

(** IPW and DR refuse an action array of floats, whatever else they are given. *)
Theorem C51_float_actions : forall round1 round2 use_est i l, i_action i = PArr (N1 l) ->
  (exists r, i_reward i = PArr (N1 r)) -> (exists q, i_q i = PArr (N3 q)) ->
  ipw_kw round1 use_est i = Err ValueError /\ dr_kw round2 use_est i = Err ValueError.
Proof.
  intros round1 round2 use_est i l Ha [r Hr] [q Hq]. unfold ipw_kw, dr_kw. rewrite Ha, Hr, Hq. split; reflexivity.
Qed.

(** ** The hypotheses can be met *)

Definition mc_est : est ope_in := mkEst "e" false (fun _ => Ok (Fin 3)) (fun _ _ _ _ => Err ValueError).
Definition mc_full : dict pyval := [("action", PArr (NI [0; 1]%Z)); ("position", PNone); ("reward", PArr (N1 [Fin 1; Fin 3])); ("context", POther)]%string.
Example C51_calls_ex : exists o, ope_init (fun _ => mc_full) 0 [mc_est] = Ok o /\
  (forall k, In k ["action"; "position"; "reward"; "context"]%string -> has_key mc_full k) /\
  ope_values o (fun _ => mc_full) (sized_args 2 2 1 2 2 1 2 2 2 3 2 2 1 2 3 1
     (fun _ _ _ => 1) (fun _ _ _ => 1) (fun _ => 1) (fun _ => 1) (fun _ _ => 1) (fun _ _ _ => 1) (fun _ _ _ => 1) "e") = Ok [("e", Fin 3)]%string /\
  ~ has_key (tl mc_full) "action" /\ (forall a, POther <> PArr a).
Proof.
  eexists. split; [reflexivity|]. split; [|split; [|split]].
  - intros k Hk. cbn [In] in Hk. intuition subst; eexists; reflexivity.
  - reflexivity.
  - intros (v & H). discriminate.
  - discriminate.
Qed.

Print Assumptions C51_shape_rules.
Print Assumptions C51_key_deleted.
Print Assumptions C51_multi_key_deleted.
Print Assumptions C105_matrix.
Print Assumptions C105_cube.
Print Assumptions C105_no_array.
Print Assumptions C51_float_actions.
