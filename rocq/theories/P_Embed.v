(** * P_Embed: properties C47-C50, C89, C90 (marginalized IPW on action embeddings). *)

From Coq Require Import Reals List ZArith Lia Lra.
From Verif Require Import Num NpList M_Utils M_Estimators M_Slate M_Multi M_Embed S_Base S_Prob S_Estimators
  S_Tuning S_Embed L_Num L_Base L_Estimators L_EstProps L_Prob L_Unbiased L_Tuning L_Examples L_Embed L_EmbedSel
  L_EmbedUnb P_Multi.
Import ListNotations.
Open Scope R_scope.

(** [estimate_policy_value] called on the arrays of log [l] with the true [p_e_a]; [sn] chooses the
    self-normalized class, [sel] is embedding_selection_method, [m] is min_emb_dim, [T] the t quantile. *)
Definition value_on (sn : bool) (sel : option selection) (m : nat) (argsort : list num -> list nat) (T : R)
    (l : elog) (arg : option (list Z)) : res num :=
  mipw_value sn sel m argsort (Fin T) (el_K l) (fun _ => []) (e_rewards l) (e_actions l) (e_embeds l)
    (e_pib l) (e_pie l) arg (Some (e_pea l)) false.

(** ** Examples *)

(** Three rounds, two actions, two positions, two embedding dimensions. *)
Definition ex_elog : elog := {|
  el_n := 3; el_K := 2; el_L := 2; el_C := 2; el_D := 2;
  el_r := fun i => nth i [1; 0; 2] 0;
  el_a := fun i => nth i [0; 1; 1]%nat 0%nat;
  el_pos := fun i => nth i [0; 1; 0]%nat 0%nat;
  el_pib := fun i a s => nth a [1/2; 1/2] 0;
  el_pie := fun i a s => nth a [1/4; 3/4] 0;
  el_emb := fun i d => nth d (nth i [[0; 1]; [1; 1]; [1; 0]]%nat []) 0%nat;
  el_pea := fun a c d => match d with
                         | O => if Nat.eqb a c then 1 else 0
                         | _ => if Nat.eqb a c then 2/3 else 1/3 end |}.

Ltac eacc := constructor; [constructor; simpl; intros; try lia; try lra; try rabs
  |constructor; simpl; intros; try lia; try lra; try rabs| simpl; lia
  |intros i d Hi Hd; simpl in *; idx i; simpl; try lia; idx d; simpl; lia
  |intros i d Hi Hd; unfold marg; simpl in *; idx i; simpl; try lia; idx d; simpl; try lia; lra].

Lemma ex_elog_accepted : e_accepted ex_elog.
Proof. eacc; idx i; simpl; lia. Qed.

(** ** C47: one-hot embeddings *)

Lemma one_hot_marg l cat pi i : e_accepted l -> one_hot l cat -> (i < el_n l)%nat ->
  marg l pi i 0 (el_emb l i 0) = pi i (el_a l i) (el_pos l i).
Proof.
  intros H (HD & Hc & Hinj & Hp & He) Hi. unfold marg. rewrite He by auto.
  pose proof (acc_a _ (ea_b l H) i Hi) as Ha. simpl in Ha.
  rewrite (sumn_ext _ _ (fun a => if Nat.eqb a (el_a l i) then pi i a (el_pos l i) else 0)).
  - revert Ha. generalize (el_K l). intros K Ha. induction K; [lia|]. simpl.
    destruct (Nat.eq_dec (el_a l i) K) as [E|E].
    + rewrite <- E, Nat.eqb_refl. rewrite sumn_zero. lra. intros j Hj.
      destruct (Nat.eqb j (el_a l i)) eqn:E'; auto. apply Nat.eqb_eq in E'. lia.
    + rewrite IHK by lia. destruct (Nat.eqb K (el_a l i)) eqn:E'. apply Nat.eqb_eq in E'. lia. lra.
  - intros a HaK. rewrite Hp by auto. destruct (Nat.eqb_spec (cat (el_a l i)) (cat a)) as [E|E];
      destruct (Nat.eqb_spec a (el_a l i)) as [E'|E']; try lra.
    + apply Hinj in E; auto. congruence.
    + subst. congruence.
Qed.

Lemma one_hot_weight l cat i : e_accepted l -> one_hot l cat -> (i < el_n l)%nat ->
  0 < el_pib l i (el_a l i) (el_pos l i) /\ e_weight l i = weight (as_log l) i.
Proof.
  intros H Ho Hi. pose proof (one_hot_marg l cat (el_pib l) i H Ho Hi) as E1.
  pose proof (one_hot_marg l cat (el_pie l) i H Ho Hi) as E2. pose proof Ho as (HD & _).
  pose proof (ea_supp l H i 0 Hi ltac:(lia)) as Hs. rewrite E1 in Hs. split; auto.
  unfold e_weight. rewrite HD. simpl. rewrite E1, E2, Rmult_1_l. reflexivity.
Qed.

Lemma one_hot_accepted l cat : e_accepted l -> one_hot l cat -> accepted (as_log l).
Proof.
  intros H Ho. destruct (ea_e l H) as [H1 H2 H3 H4 H5]. constructor; auto.
  intros i Hi. apply (one_hot_weight l cat i H Ho Hi).
Qed.

Lemma value_ok sel m argsort T l arg : e_accepted l -> position_arg (as_log l) arg -> (sel = None \/ el_D l = 1%nat) ->
  value_on false sel m argsort T l arg = Ok (Fin (spec_mipw l)).
Proof.
  intros H Harg Hs. unfold value_on, mipw_value. rewrite embed_checks_ok by auto. cbn [bind].
  rewrite D_of by auto. rewrite e_position by auto.
  replace (if Nat.ltb 1 (el_D l) then sel else None) with (@None selection).
  2:{ destruct Hs as [->| ->]. destruct (Nat.ltb _ _); auto. reflexivity. }
  rewrite ec_rounds_ok by auto. cbn [bind]. rewrite nmean_tabF by apply (e_dims l H). reflexivity.
Qed.

Lemma value_sn_ok sel m argsort T l arg : e_accepted l -> position_arg (as_log l) arg -> (sel = None \/ el_D l = 1%nat) ->
  sumn (el_n l) (e_weight l) <> 0 ->
  value_on true sel m argsort T l arg
  = Ok (Fin (sumn (el_n l) (fun i => e_weight l i * el_r l i) / sumn (el_n l) (e_weight l))).
Proof.
  intros H Harg Hs Hw. unfold value_on, mipw_value. rewrite embed_checks_ok by auto. cbn [bind].
  rewrite D_of by auto. rewrite e_position by auto.
  replace (if Nat.ltb 1 (el_D l) then sel else None) with (@None selection).
  2:{ destruct Hs as [->| ->]. destruct (Nat.ltb _ _); auto. reflexivity. }
  rewrite ec_rounds_sn_ok by auto. cbn [bind]. destruct (e_dims l H) as (Hn & _). rewrite nmean_tabF by auto.
  do 2 f_equal. unfold avg. rewrite sumn_div. pose proof (INR_pos _ Hn). field. split; auto. lra.
Qed.

(** If each action has its own category, MIPW is IPW with the behaviour policy's propensities, and the
    self-normalized version is SNIPW - whatever the selection option. *)
Theorem C47_one_hot_is_ipw : forall l cat sel m argsort T arg,
  e_accepted l -> one_hot l cat -> position_arg (as_log l) arg ->
  value_on false sel m argsort T l arg
  = ipw_value PInf false (rewards (as_log l)) (actions (as_log l)) (policy (as_log l))
              (Some (pscores (as_log l))) arg None.
Proof.
  intros l cat sel m argsort T arg H Ho Harg. pose proof Ho as (HD & _). rewrite value_ok by auto.
  pose proof (ipw_value_ok None false (as_log l) arg (Some (pscores (as_log l))) None
    (one_hot_accepted l cat H Ho) Harg eq_refl) as E. simpl lam_num in E. rewrite E.
  do 2 f_equal. unfold spec_mipw, spec_ipw. simpl. apply avg_ext. intros i Hi.
  destruct (one_hot_weight l cat i H Ho Hi) as [_ ->]. ring.
Qed.

Theorem C47_one_hot_is_snipw : forall l cat sel m argsort T arg,
  e_accepted l -> one_hot l cat -> position_arg (as_log l) arg -> sumn (el_n l) (weight (as_log l)) <> 0 ->
  value_on true sel m argsort T l arg
  = snipw_value false (rewards (as_log l)) (actions (as_log l)) (policy (as_log l))
              (Some (pscores (as_log l))) arg None.
Proof.
  intros l cat sel m argsort T arg H Ho Harg Hw. pose proof Ho as (HD & _).
  assert (E : sumn (el_n l) (e_weight l) = sumn (el_n l) (weight (as_log l))).
  { apply sumn_ext. intros i Hi. apply (one_hot_weight l cat i H Ho Hi). }
  rewrite value_sn_ok by (auto; rewrite E; auto).
  rewrite (snipw_value_ok false (as_log l) arg (Some (pscores (as_log l))) None
    (one_hot_accepted l cat H Ho) Harg eq_refl Hw).
  do 2 f_equal. unfold spec_snipw. rewrite E. f_equal. apply sumn_ext. intros i Hi.
  destruct (one_hot_weight l cat i H Ho Hi) as [_ ->]. reflexivity.
Qed.

(** Categories are the action numbers reversed. *)
Definition ex_onehot : elog := {|
  el_n := 2; el_K := 2; el_L := 1; el_C := 3; el_D := 1;
  el_r := fun i => nth i [1; 5] 0; el_a := fun i => i; el_pos := fun _ => 0%nat;
  el_pib := fun i a s => nth a [1/2; 1/2] 0; el_pie := fun i a s => nth a [1/4; 3/4] 0;
  el_emb := fun i d => (2 - i)%nat;
  el_pea := fun a c d => if Nat.eqb c (2 - a) then 1 else 0 |}.
Example C47_example : e_accepted ex_onehot /\ one_hot ex_onehot (fun a => 2 - a)%nat /\
  position_arg (as_log ex_onehot) None /\ spec_mipw ex_onehot = 4 /\
  sumn (el_n ex_onehot) (weight (as_log ex_onehot)) = 2.
Proof.
  split; [|split; [|split; [|split]]].
  - eacc.
  - split; [reflexivity|]. split; [|split; [|split]]; intros; cbn [ex_onehot el_K el_C el_n] in *; try lia; auto.
  - right. simpl; auto.
  - unfold spec_mipw, avg, e_weight, marg. simpl. lra.
  - unfold weight. simpl. lra.
Qed.

(** ** C48: unbiasedness *)

(** No direct effect (the reward law sees only the embedding), common support of the *embedding*
    (not of the actions) and dimensions independent under both policies: MIPW is unbiased. *)
Theorem C48_unbiased_independent_dims : forall {X} (e : eenv X) arg m argsort T,
  eenv_ok e -> emb_support e -> factorises e -> (forall o, position_arg (as_log (elog_of e o)) arg) ->
  expects (e_logs e) (fun o => value_on false None m argsort T (elog_of e o) arg) (e_value e).
Proof.
  intros X e arg m argsort T He Hs Hf Harg. exists (fun o => spec_mipw (elog_of e o)). split.
  - intros o p Ho Hp. apply value_ok; auto. eapply elog_accepted; eauto.
  - apply spec_mipw_expect; auto.
Qed.

(** With one embedding dimension independence is automatic. *)
Theorem C48_unbiased_one_dim : forall {X} (e : eenv X) arg sel m argsort T,
  eenv_ok e -> emb_support e -> en_D e = 1%nat -> (forall o, position_arg (as_log (elog_of e o)) arg) ->
  expects (e_logs e) (fun o => value_on false sel m argsort T (elog_of e o) arg) (e_value e).
Proof.
  intros X e arg sel m argsort T He Hs HD Harg. exists (fun o => spec_mipw (elog_of e o)). split.
  - intros o p Ho Hp. apply value_ok; auto. eapply elog_accepted; eauto.
  - apply spec_mipw_expect; auto. apply one_dim_factorises; auto.
Qed.

(** Three actions, of which 1 and 2 share a category.  The behaviour policy never plays action 2 but the
    evaluation policy does: vanilla IPW is biased here. *)
Definition ex_eenv : eenv bool := {|
  en_n := 2; en_K := 3; en_L := 1; en_C := 2; en_D := 1; en_pos := fun _ => 0%nat;
  en_ctx := fun _ => [(true, 1/3); (false, 2/3)];
  en_pb := fun x s a => nth a [1/4; 3/4; 0] 0;
  en_pe := fun x s a => if x then nth a [1/2; 0; 1/2] 0 else nth a [0; 1/3; 2/3] 0;
  en_emb := fun a => match a with O => [([0%nat], 1)] | _ => [([0%nat], 1/5); ([1%nat], 4/5)] end;
  en_rd := fun x s v => [(1, 1/2); (0, 1/2)] |}.

Ltac isd := split; [intros ? ? [[= <- <-]|[[= <- <-]|[]]] || (intros ? ? [[= <- <-]|[]]); lra | simpl; lra].

Lemma ex_eenv_ok : eenv_ok ex_eenv.
Proof.
  constructor; simpl; intros; try lia; try lra.
  - isd.
  - idx a; simpl; lra || lia.
  - destruct x; idx a; simpl; lra || lia.
  - destruct x; simpl; lra.
  - destruct a; isd.
  - destruct a; simpl in *; intuition; repeat match goal with H : (_, _) = (_, _) |- _ => injection H as <- <- end;
      auto; idx d; simpl; lia.
  - isd.
Qed.
Example C48_example : eenv_ok ex_eenv /\ emb_support ex_eenv /\ en_D ex_eenv = 1%nat /\
  (forall o, position_arg (as_log (elog_of ex_eenv o)) None) /\ e_value ex_eenv = 1/2 /\
  en_pb ex_eenv true 0%nat 2%nat = 0 /\ 0 < en_pe ex_eenv true 0%nat 2%nat.
Proof.
  split. apply ex_eenv_ok. split; [|split; [|split; [|split]]]; auto.
  - intros x s v. unfold pr, emb_under. destruct x; cbn -[list_eq_dec];
      destruct (list_eq_dec Nat.eq_dec [0%nat] v); destruct (list_eq_dec Nat.eq_dec [1%nat] v); intros; lra.
  - intros o. right. simpl. auto.
  - unfold e_value, avg. simpl. lra.
  - simpl. lra.
Qed.

(** Four actions = two bits, each bit visible in one dimension; both policies choose the bits independently. *)
Definition ex_eenv2 : eenv unit := {|
  en_n := 2; en_K := 4; en_L := 1; en_C := 2; en_D := 2; en_pos := fun _ => 0%nat;
  en_ctx := fun _ => [(tt, 1)];
  en_pb := fun x s a => 1/4;
  en_pe := fun x s a => nth a [1/6; 1/3; 1/6; 1/3] 0;
  en_emb := fun a => [([Nat.div a 2; Nat.modulo a 2], 1)];
  en_rd := fun x s v => [(INR (nth 1 v 0%nat), 1)] |}.
Example C48_example_two_dims : eenv_ok ex_eenv2 /\ emb_support ex_eenv2 /\ factorises ex_eenv2 /\
  (forall o, position_arg (as_log (elog_of ex_eenv2 o)) None) /\ e_value ex_eenv2 = 2/3.
Proof.
  split; [|split; [|split; [|split]]].
  - constructor; simpl; intros; try lia; try lra.
    + isd.
    + idx a; simpl; lra || lia.
    + isd.
    + destruct H0 as [[= <- <-]|[]]. split; auto. intros d Hd. idx d; simpl; try lia; idx a; simpl; lia.
    + isd.
  - intros x s v. unfold pr, emb_under. cbn -[list_eq_dec].
    repeat match goal with |- context [list_eq_dec Nat.eq_dec ?a v] => destruct (list_eq_dec Nat.eq_dec a v) end; intros; lra.
  - intros x s v Hv. destruct v as [|v0 [|v1 [|]]]; try discriminate. unfold pr, pr_dim, emb_under.
    destruct v0 as [|[|v0]]; destruct v1 as [|[|v1]]; simpl; split; lra.
  - intros o. right. simpl. auto.
  - unfold e_value, avg. simpl. lra.
Qed.

(** ** C49: the weight multiplies per-dimension marginals *)

Theorem C49_value : forall l m argsort T arg, e_accepted l -> position_arg (as_log l) arg ->
  value_on false None m argsort T l arg = Ok (Fin (avg (el_n l) (fun i =>
    prodn (el_D l) (fun d =>
      sumn (el_K l) (fun a => el_pie l i a (el_pos l i) * el_pea l a (el_emb l i d) d) /
      sumn (el_K l) (fun a => el_pib l i a (el_pos l i) * el_pea l a (el_emb l i d) d))
    * el_r l i))).
Proof. intros. rewrite value_ok by auto. reflexivity. Qed.

Example C49_example : e_accepted ex_elog /\ position_arg (as_log ex_elog) (Some (positions (as_log ex_elog))) /\
  spec_mipw ex_elog = 37 / 36.
Proof.
  split. apply ex_elog_accepted. split. left; reflexivity. unfold spec_mipw, avg, e_weight, marg. simpl. lra.
Qed.

(** Two perfectly dependent dimensions: all assumptions of MIPW hold (no direct effect, even common
    support of the actions) and yet the estimator's expectation is 2 while the policy value is 1. *)
Definition ex_eenv3 : eenv unit := {|
  en_n := 1; en_K := 2; en_L := 1; en_C := 2; en_D := 2; en_pos := fun _ => 0%nat;
  en_ctx := fun _ => [(tt, 1)];
  en_pb := fun x s a => 1/2;
  en_pe := fun x s a => nth a [1; 0] 0;
  en_emb := fun a => [([a; a], 1)];
  en_rd := fun x s v => [(match v with O :: _ => 1 | _ => 0 end, 1)] |}.

Theorem C49_biased_for_dependent_dims : exists e : eenv unit,
  eenv_ok e /\ emb_support e /\ (forall x s a, (a < en_K e)%nat -> 0 < en_pb e x s a) /\
  (forall m argsort T, expects (e_logs e) (fun o => value_on false None m argsort T (elog_of e o) None) 2) /\
  e_value e = 1.
Proof.
  exists ex_eenv3.
  assert (Hok : eenv_ok ex_eenv3).
  { constructor; simpl; intros; try lia; try lra.
    - isd.
    - idx a; simpl; lra || lia.
    - isd.
    - destruct H0 as [[= <- <-]|[]]. split; auto. intros d Hd. idx d; simpl; try lia; idx a; simpl; lia.
    - isd. }
  split; auto. split; [|split; [|split]].
  - intros x s v. unfold pr, emb_under. cbn -[list_eq_dec].
    repeat match goal with |- context [list_eq_dec Nat.eq_dec ?a v] => destruct (list_eq_dec Nat.eq_dec a v) end; intros; lra.
  - simpl. intros; lra.
  - intros m argsort T. exists (fun o => spec_mipw (elog_of ex_eenv3 o)). split.
    + intros o p Ho Hp. apply value_ok; auto. eapply elog_accepted; eauto. right. simpl. auto.
    + unfold spec_mipw, avg, e_weight, marg, pr_dim. simpl. lra.
  - unfold e_value, avg. simpl. lra.
Qed.

(** ** C50: selection of dimensions *)

(** Exact selection: subsets are tested from the full set down to [m] dimensions, larger subsets first and
    within a size widest first; the result is the estimate tested just before the first rejected subset,
    or the last but one when no subset is rejected. *)
Theorem C50_exact_selection : forall l sn m argsort T arg,
  e_accepted l -> position_arg (as_log l) arg -> (forall xs, is_argsort xs (argsort xs)) ->
  (2 <= el_n l)%nat -> (1 <= m < el_D l)%nat ->
  exists visited v,
    exact_visits (dim_estimate l T) (el_D l) m (el_D l) visited /\
    value_on sn (Some Exact) m argsort T l arg = Ok (Fin v) /\
    (stops_at_rejection (map (dim_estimate l T) visited) v \/
     last_but_one (map (dim_estimate l T) visited) v).
Proof.
  intros l sn m argsort T arg H Harg Hs Hn Hm. unfold value_on, mipw_value. rewrite embed_checks_ok by auto. cbn [bind].
  rewrite D_of by auto. rewrite e_position by auto.
  replace (Nat.ltb 1 (el_D l)) with true by (symmetry; apply Nat.ltb_lt; lia).
  set (c := mkECall _ _ _ _ _ _ _ _ _). set (est := dim_estimate l T).
  assert (He : forall s k, (m <= k <= el_D l)%nat -> subset (el_D l) k s -> ec_dev (Fin T) c s = Ok (toN (est s))).
  { intros s k Hk Hss. apply (ec_dev_ok l T _ _ k); auto. lia. }
  assert (Hfull : subset (el_D l) (el_D l) (seq 0 (el_D l))).
  { apply combinations_subset. rewrite combinations_full. simpl; auto. }
  unfold exact_pruning.
  replace (rev (seq m (S (el_D l) - m))) with (el_D l :: rev (seq m (S (el_D l - 1) - m))).
  2:{ replace (S (el_D l) - m)%nat with (S (S (el_D l - 1) - m)) by lia. rewrite seq_S, rev_app_distr. cbn [rev app].
      replace (m + (S (el_D l - 1) - m))%nat with (el_D l) by lia. reflexivity. }
  cbn [exact_loop]. rewrite combinations_full. cbn [mapM]. rewrite (He _ (el_D l)) by (auto; lia). cbn [bind].
  assert (Hnil : argsort [] = []).
  { pose proof (is_argsort_perm _ _ (Hs [])) as P. simpl in P. apply Permutation.Permutation_sym in P. apply Permutation.Permutation_nil in P. auto. }
  unfold by_width at 1. simpl map. rewrite Hnil. simpl rev. cbn [mapM bind select_loop].
  destruct (exact_loop_spec argsort est (ec_dev (Fin T) c) (el_D l) m Hs ltac:(lia) He (el_D l - 1)
              [est (seq 0 (el_D l))] None) as (seqs & Hv & Hr); try lia; auto.
  - congruence.
  - intros i Hi. simpl in Hi. replace i with 0%nat by lia. intros j Hj. lia.
  - left. auto.
  - assert (Hvis : exact_visits est (el_D l) m (el_D l) ([seq 0 (el_D l)] ++ seqs)).
    { apply ev_level; auto. lia. constructor; auto. constructor.
      - intros s. rewrite <- combinations_subset, combinations_full. simpl. tauto.
      - intros i j Hij. simpl in Hij. lia. }
    destruct Hr as [(v & Hr1 & Hr2)|[Hr1 Hr2]].
    + exists ([seq 0 (el_D l)] ++ seqs), v. split; auto.
    + exfalso. rewrite app_length, map_length in Hr1. simpl in Hr1. assert (seqs = []) by (destruct seqs; simpl in *; auto; lia). subst seqs.
      inversion Hv as [|k level rest Hk Hnd Hlev Hw Hrest E1 E2]; subst. lia.
      apply app_eq_nil in E2 as [-> ->].
      destruct (combinations (seq 0 (el_D l)) (el_D l - 1)) as [|s0 ss] eqn:Ec.
      * assert (Hd : subset (el_D l) (el_D l - 1) (drop 0 (seq 0 (el_D l)))).
        { apply drop_subset. replace (S (el_D l - 1)) with (el_D l) by lia. auto. apply in_seq. lia. }
        apply combinations_subset in Hd. rewrite Ec in Hd. inversion Hd.
      * assert (Hd : In s0 (combinations (seq 0 (el_D l)) (el_D l - 1))) by (rewrite Ec; simpl; auto).
        apply combinations_subset in Hd. apply Hlev in Hd. inversion Hd.
Qed.

(** Greedy selection: after the full set, every set with one dimension fewer is tested, widest first, and
    the search continues from the narrowest one. *)
Theorem C50_greedy_selection : forall l sn m argsort T arg,
  e_accepted l -> position_arg (as_log l) arg -> (forall xs, is_argsort xs (argsort xs)) ->
  (2 <= el_n l)%nat -> (1 <= m < el_D l)%nat ->
  exists visited v,
    greedy_visits (dim_estimate l T) m (seq 0 (el_D l)) visited /\
    value_on sn (Some Greedy) m argsort T l arg = Ok (Fin v) /\
    (stops_at_rejection (map (dim_estimate l T) (seq 0 (el_D l) :: visited)) v \/
     last_but_one (map (dim_estimate l T) (seq 0 (el_D l) :: visited)) v).
Proof.
  intros l sn m argsort T arg H Harg Hs Hn Hm. unfold value_on, mipw_value. rewrite embed_checks_ok by auto. cbn [bind].
  rewrite D_of by auto. rewrite e_position by auto.
  replace (Nat.ltb 1 (el_D l)) with true by (symmetry; apply Nat.ltb_lt; lia).
  set (c := mkECall _ _ _ _ _ _ _ _ _). set (est := dim_estimate l T).
  assert (He : forall s k, (m <= k <= el_D l)%nat -> subset (el_D l) k s -> ec_dev (Fin T) c s = Ok (toN (est s))).
  { intros s k Hk Hss. apply (ec_dev_ok l T _ _ k); auto. lia. }
  assert (Hfull : subset (el_D l) (el_D l) (seq 0 (el_D l))).
  { apply combinations_subset. rewrite combinations_full. simpl; auto. }
  unfold greedy_pruning. rewrite (He _ (el_D l)) by (auto; lia). cbn [bind].
  destruct (greedy_loop_spec argsort est (ec_dev (Fin T) c) (el_D l) m Hs ltac:(lia) He (el_D l) (el_D l)
              (seq 0 (el_D l)) [est (seq 0 (el_D l))] None) as (seqs & Hv & Hr); try lia; auto.
  - congruence.
  - intros i Hi. simpl in Hi. replace i with 0%nat by lia. intros j Hj. lia.
  - left. auto.
  - destruct Hr as [(v & Hr1 & Hr2)|[Hr1 Hr2]].
    + exists seqs, v. split; auto.
    + exfalso. rewrite app_length, map_length in Hr1. simpl in Hr1. assert (seqs = []) by (destruct seqs; simpl in *; auto; lia). subst seqs.
      inversion Hv as [feat Hf E1 E2|feat level rest Hk (ds & Hd1 & Hd2 & Hd3) Hw Hrest E1 E2]; subst.
      * rewrite seq_length in Hf. lia.
      * apply app_eq_nil in E2 as [E2 _]. apply map_eq_nil in E2. subst ds.
        apply (Hd3 0%nat). apply in_seq. lia.
Qed.

(** [min_emb_dim] not smaller than the number of dimensions: the call raises UnboundLocalError. *)
Theorem C50_min_dim_too_large_raises : forall l sn s m argsort T arg,
  e_accepted l -> position_arg (as_log l) arg -> (forall xs, is_argsort xs (argsort xs)) ->
  (2 <= el_n l)%nat -> (2 <= el_D l <= m)%nat ->
  value_on sn (Some s) m argsort T l arg = Err NameError.
Proof.
  intros l sn s m argsort T arg H Harg Hs Hn Hm. unfold value_on, mipw_value. rewrite embed_checks_ok by auto. cbn [bind].
  rewrite D_of by auto. rewrite e_position by auto.
  replace (Nat.ltb 1 (el_D l)) with true by (symmetry; apply Nat.ltb_lt; lia).
  set (c := mkECall _ _ _ _ _ _ _ _ _).
  assert (Hfull : subset (el_D l) (el_D l) (seq 0 (el_D l))).
  { apply combinations_subset. rewrite combinations_full. simpl; auto. }
  assert (He : ec_dev (Fin T) c (seq 0 (el_D l)) = Ok (toN (dim_estimate l T (seq 0 (el_D l))))).
  { apply (ec_dev_ok l T _ _ (el_D l)); auto. lia. }
  destruct s.
  - unfold exact_pruning. destruct (Nat.eq_dec m (el_D l)) as [->|Hne].
    + replace (S (el_D l) - el_D l)%nat with 1%nat by lia. cbn [seq rev app exact_loop]. rewrite combinations_full.
      cbn [mapM]. rewrite He. cbn [bind].
      assert (Hnil : argsort [] = []).
      { pose proof (is_argsort_perm _ _ (Hs [])) as P. simpl in P. apply Permutation.Permutation_sym in P. apply Permutation.Permutation_nil in P. auto. }
      unfold by_width at 1. simpl map. rewrite Hnil. reflexivity.
    + replace (S (el_D l) - m)%nat with 0%nat by lia. reflexivity.
  - unfold greedy_pruning. rewrite He. cbn [bind]. destruct (el_D l); [lia|]. cbn [greedy_loop].
    rewrite seq_length. replace (Nat.ltb m (S n)) with false by (symmetry; apply Nat.ltb_ge; lia). reflexivity.
Qed.

(** The selection option changes nothing for the confidence interval: without selection value and interval
    use the same rounds, and [estimate_interval] has no selection at all. *)
Theorem C86_embedding_interval_resamples_rounds :
  forall sn sel m argsort ppf na fit reward action embed pib pie pos pea ctx,
  (sel = None \/ (length (hd [] embed) <= 1)%nat) ->
  resamples (mipw_value sn sel m argsort ppf na fit reward action embed pib pie pos pea ctx)
            (mipw_interval sn na fit reward action embed pib pie pos pea ctx).
Proof.
  intros. unfold mipw_value, mipw_interval.
  replace (if Nat.ltb 1 (match embed with [] => 0%nat | r :: _ => length r end) then sel else None) with (@None selection).
  - resamp.
  - destruct H as [->|H]. destruct (Nat.ltb _ _); auto.
    replace (Nat.ltb 1 (match embed with [] => 0%nat | r :: _ => length r end)) with false; auto.
    symmetry. apply Nat.ltb_ge. destruct embed; simpl in *; lia.
Qed.

(** ** C90: self-normalization *)

(** Without selection SNMIPW is a weighted average of the logged rewards. *)
Theorem C90_snmipw_value : forall l m argsort T arg, e_accepted l -> position_arg (as_log l) arg ->
  sumn (el_n l) (e_weight l) <> 0 ->
  value_on true None m argsort T l arg
  = Ok (Fin (sumn (el_n l) (fun i => e_weight l i * el_r l i) / sumn (el_n l) (e_weight l))).
Proof. intros. apply value_sn_ok; auto. Qed.

Theorem C90_snmipw_within_reward_range : forall l m argsort T arg lo hi,
  e_accepted l -> position_arg (as_log l) arg ->
  (forall i a, (i < el_n l)%nat -> (a < el_K l)%nat -> 0 <= el_pie l i a (el_pos l i)) ->
  (forall a c d, 0 <= el_pea l a c d) ->
  (forall i, (i < el_n l)%nat -> lo <= el_r l i <= hi) ->
  0 < sumn (el_n l) (e_weight l) ->
  exists v, value_on true None m argsort T l arg = Ok (Fin v) /\ lo <= v <= hi.
Proof.
  intros l m argsort T arg lo hi H Harg Hp He Hr Hw. eexists. split. apply value_sn_ok; auto. lra.
  assert (W : forall i, (i < el_n l)%nat -> 0 <= e_weight l i).
  { intros i Hi. unfold e_weight. assert (G : forall D, (D <= el_D l)%nat -> 0 <= prodn D (fun d => marg l (el_pie l) i d (el_emb l i d) / marg l (el_pib l) i d (el_emb l i d))).
    { induction D; simpl; intros HD. lra. apply Rmult_le_pos. apply IHD; lia. apply Rmult_le_pos.
      - unfold marg. apply sumn_nonneg. intros a Ha. apply Rmult_le_pos; auto.
      - left. apply Rinv_0_lt_compat. apply (ea_supp l H); auto. }
    apply G. lia. }
  assert (L : lo * sumn (el_n l) (e_weight l) <= sumn (el_n l) (fun i => e_weight l i * el_r l i)).
  { rewrite <- sumn_scal. apply sumn_le. intros i Hi. specialize (W i Hi). specialize (Hr i Hi). nra. }
  assert (U : sumn (el_n l) (fun i => e_weight l i * el_r l i) <= hi * sumn (el_n l) (e_weight l)).
  { rewrite <- sumn_scal. apply sumn_le. intros i Hi. specialize (W i Hi). specialize (Hr i Hi). nra. }
  split; apply Rmult_le_reg_r with (sumn (el_n l) (e_weight l)); auto; unfold Rdiv; rewrite Rmult_assoc, Rinv_l by lra; lra.
Qed.

(** With selection the self-normalized class returns exactly what the plain class returns ... *)
Theorem C90_selection_drops_normalization : forall s m argsort ppf na fit reward action embed pib pie pos pea ctx,
  (2 <= length (hd [] embed))%nat ->
  mipw_value true (Some s) m argsort ppf na fit reward action embed pib pie pos pea ctx
  = mipw_value false (Some s) m argsort ppf na fit reward action embed pib pie pos pea ctx.
Proof.
  intros. unfold mipw_value.
  replace (Nat.ltb 1 (match embed with [] => 0%nat | r :: _ => length r end)) with true; auto.
  symmetry. apply Nat.ltb_lt. destruct embed; simpl in *; lia.
Qed.

(** ... so it leaves the range of the rewards: all rewards are 1 and the "self-normalized" value is 4. *)
Definition ex_sn : elog := {|
  el_n := 2; el_K := 2; el_L := 1; el_C := 2; el_D := 2;
  el_r := fun _ => 1; el_a := fun _ => 0%nat; el_pos := fun _ => 0%nat;
  el_pib := fun i a s => 1/2; el_pie := fun i a s => nth a [1; 0] 0;
  el_emb := fun _ _ => 0%nat; el_pea := fun a c d => if Nat.eqb a c then 1 else 0 |}.
Lemma ex_sn_accepted : e_accepted ex_sn.
Proof. eacc. Qed.
Theorem C90_selection_leaves_reward_range : forall s argsort T, (forall xs, is_argsort xs (argsort xs)) ->
  e_accepted ex_sn /\ (forall i, el_r ex_sn i = 1) /\
  value_on true None 1 argsort T ex_sn None = Ok (Fin 1) /\
  value_on true (Some s) 1 argsort T ex_sn None = Ok (Fin 4).
Proof.
  intros s argsort T Hs. pose proof ex_sn_accepted as Ha.
  assert (Harg : position_arg (as_log ex_sn) None) by (right; simpl; auto).
  split; auto. split; auto. split.
  { rewrite value_sn_ok; auto. do 2 f_equal. unfold e_weight, marg. simpl. lra. unfold e_weight, marg. simpl. lra. }
  assert (Hsv : forall n (f : nat -> R), (0 < n)%nat -> (forall i, (i < n)%nat -> f i = f 0%nat) -> sample_var n f = 0).
  { intros n f Hn Hc. unfold sample_var. rewrite (avg_ext n f (fun _ => f 0%nat)) by auto. rewrite avg_const by auto.
    rewrite (avg_ext n _ (fun _ => 0)). apply avg_const; auto. intros i Hi. rewrite (Hc i Hi). ring. }
  assert (W : forall i s0, subset 2 (length s0) s0 -> e_weight (restrict ex_sn s0) i = 2 ^ (length s0)).
  { intros i s0 _. unfold e_weight. cbn [restrict el_D]. induction (length s0) as [|k IH]. reflexivity.
    cbn [prodn pow]. rewrite IH. unfold marg. simpl. lra. }
  assert (E : forall s0, subset 2 (length s0) s0 -> dim_estimate ex_sn T s0 = (2 ^ length s0, 0)).
  { intros s0 H0. unfold dim_estimate. f_equal.
    - unfold spec_mipw. cbn [restrict el_n el_r ex_sn]. rewrite (avg_ext 2 _ (fun _ => 2 ^ length s0)). apply avg_const; lia.
      intros i Hi. rewrite W by auto. ring.
    - rewrite Hsv. unfold Rdiv. rewrite Rmult_0_l, sqrt_0. ring. simpl; lia. intros i Hi. rewrite !W by auto. reflexivity. }
  (* whichever single dimension is tested first, it is rejected *)
  assert (Rej : forall rest v first, subset 2 1 first ->
     stops_at_rejection (map (dim_estimate ex_sn T) (seq 0 2 :: first :: rest)) v \/
     last_but_one (map (dim_estimate ex_sn T) (seq 0 2 :: first :: rest)) v -> v = 4).
  { intros rest v first Hf Hc.
    assert (Hfirst : dim_estimate ex_sn T first = (2, 0)).
    { destruct Hf as (F1 & F2 & F3). rewrite E, F2. f_equal. simpl. lra. split; auto. }
    assert (Hfull : dim_estimate ex_sn T (seq 0 2) = (4, 0)).
    { rewrite E. f_equal. simpl. lra. apply combinations_subset. simpl; auto. }
    assert (Hna : ~ admissible (map (dim_estimate ex_sn T) (seq 0 2 :: first :: rest)) 1).
    { intros C. specialize (C 0%nat ltac:(lia)). unfold agrees in C. cbn [map nth] in C.
      rewrite Hfirst, Hfull in C. simpl in C. rewrite Rabs_right in C by lra. lra. }
    destruct Hc as [(k & H1 & H2 & H3 & ->)|(k & H1 & H2 & ->)].
    - destruct k as [|k]. cbn [map nth]. rewrite Hfull. reflexivity. exfalso. apply Hna. apply H2. lia.
    - exfalso. apply Hna. apply H2. lia. }
  destruct s.
  - destruct (C50_exact_selection ex_sn true 1 argsort T None Ha Harg Hs ltac:(simpl; lia) ltac:(simpl; lia))
      as (vis & v & Hv & Ev & Hc). rewrite Ev. do 2 f_equal.
    cbn [el_D ex_sn] in Hv. inversion Hv as [|k level rest Hk Hnd Hlev Hw Hrest E1 E2]; subst. lia.
    assert (Hl1 : level = [seq 0 2]).
    { assert (I1 : In (seq 0 2) level) by (apply Hlev, combinations_subset; simpl; auto).
      assert (I2 : forall x, In x level -> x = seq 0 2).
      { intros x Hx. apply Hlev, combinations_subset in Hx. simpl in Hx. destruct Hx as [<-|[]]. reflexivity. }
      destruct level as [|a [|b level]]. inversion I1. rewrite (I2 a) by (simpl; auto). reflexivity.
      exfalso. rewrite (I2 a), (I2 b) in Hnd by (simpl; auto). inversion Hnd. simpl in *. tauto. }
    subst level. simpl in Hrest. inversion Hrest as [|k level rest' Hk' Hnd' Hlev' Hw' Hrest' E1' E2']; subst. lia.
    destruct level as [|first level].
    + exfalso. assert (In [0%nat] []) by (apply Hlev', combinations_subset; simpl; auto). auto.
    + apply (Rej (level ++ rest') v first). apply Hlev'. simpl; auto. exact Hc.
  - destruct (C50_greedy_selection ex_sn true 1 argsort T None Ha Harg Hs ltac:(simpl; lia) ltac:(simpl; lia))
      as (vis & v & Hv & Ev & Hc). rewrite Ev. do 2 f_equal.
    cbn [el_D ex_sn] in Hv. inversion Hv as [feat Hf E1 E2|feat level rest Hk (ds & Hd1 & Hd2 & Hd3) Hw Hrest E1 E2]; subst.
    simpl in Hf. lia.
    destruct ds as [|d ds]. exfalso. apply (Hd3 0%nat). simpl; auto.
    apply (Rej (map (fun d => drop d (seq 0 2)) ds ++ rest) v (drop d (seq 0 2))).
    + apply drop_subset. apply combinations_subset. simpl; auto. apply Hd3. simpl; auto.
    + exact Hc.
Qed.

Example C50_example : e_accepted ex_elog /\ position_arg (as_log ex_elog) (Some (positions (as_log ex_elog))) /\
  (2 <= el_n ex_elog)%nat /\ (1 <= 1 < el_D ex_elog)%nat.
Proof. split. apply ex_elog_accepted. split. left; reflexivity. simpl. lia. Qed.
Example C90_example : e_accepted ex_elog /\ sumn (el_n ex_elog) (e_weight ex_elog) = 43/12 /\
  (forall i a, (i < el_n ex_elog)%nat -> (a < el_K ex_elog)%nat -> 0 <= el_pie ex_elog i a (el_pos ex_elog i)) /\
  (forall a c d, 0 <= el_pea ex_elog a c d).
Proof.
  split. apply ex_elog_accepted. split. unfold e_weight, marg. simpl. lra. split.
  - intros i a Hi Ha. simpl in *. idx a; simpl; lra || lia.
  - intros a c d. simpl. destruct d; destruct (Nat.eqb a c); lra.
Qed.

(** ** C89: estimated weights *)

(** Without [p_e_a] the weight is the classifier-weighted average of the vanilla ratios of the logged
    actions; actions never logged, or with zero behaviour probability, contribute nothing. *)
Theorem C89_estimated_weights_value : forall l U post fit m argsort T arg,
  e_accepted l -> position_arg (as_log l) arg -> logged_actions l U ->
  (forall i a, (i < el_n l)%nat -> (a < el_K l)%nat -> 0 <= el_pie l i a (el_pos l i)) ->
  fit (e_embeds l) = tab (el_n l) (fun i => map (fun a => Fin (post i a)) U) ->
  mipw_value false None m argsort (Fin T) (el_K l) fit (e_rewards l) (e_actions l) (e_embeds l)
    (e_pib l) (e_pie l) arg None true
  = Ok (Fin (avg (el_n l) (fun i => est_weight l U post i * el_r l i))).
Proof.
  intros l U post fit m argsort T arg H Harg HU Hp Hfit. unfold mipw_value.
  pose proof (embed_checks_ok l arg true H Harg) as E. unfold embed_checks in *.
  destruct (check_ope_inputs (e_pib l) arg (Some (e_actions l)) (Some (e_rewards l)) None None None); [|discriminate].
  cbn [bind] in *. destruct (check_ope_inputs (e_pie l) arg (Some (e_actions l)) (Some (e_rewards l)) None None None); [|discriminate].
  cbn [bind negb raise_if]. rewrite e_position by auto.
  replace (if Nat.ltb 1 _ then None else None) with (@None selection) by (destruct (Nat.ltb _ _); auto).
  unfold ec_rounds, ec_weights. cbn [ec_reward ec_nact ec_fit ec_action ec_pib ec_pie ec_pos ec_embed ec_pea].
  replace (length (e_rewards l)) with (el_n l) by (unfold e_rewards, tabF; rewrite tab_length; auto).
  rewrite (w_est_ok l U post fit) by auto. cbn [bind].
  destruct (e_dims l H) as (Hn & _). destruct (nmaxl_tab (el_n l) (est_weight l U post) Hn) as [v ->]. cbn [bind].
  unfold e_rewards. rewrite (bcast2_tabF nmul Rmult) by reflexivity. cbn [bind].
  rewrite nmean_tabF by auto. do 2 f_equal. apply avg_ext. intros; ring.
Qed.

(** A classifier that returns the true posterior of the action given the embedding, on a log in which every
    action of positive behaviour probability occurs, makes the weight the ratio of the marginal
    probabilities of the whole embedding vector ([Q i a] is the probability of round [i]'s vector under
    action [a]) - so this weight, unlike the product of C49, is correct for dependent dimensions. *)
Theorem C89_calibrated : forall l U post (Q : nat -> nat -> R) fit m argsort T arg,
  e_accepted l -> position_arg (as_log l) arg -> logged_actions l U ->
  (forall i a, (i < el_n l)%nat -> (a < el_K l)%nat -> 0 <= el_pie l i a (el_pos l i)) ->
  fit (e_embeds l) = tab (el_n l) (fun i => map (fun a => Fin (post i a)) U) ->
  (forall i a, (i < el_n l)%nat -> (a < el_K l)%nat -> el_pib l i a (el_pos l i) <> 0 -> In a U) ->
  (forall i a, (i < el_n l)%nat -> (a < el_K l)%nat -> el_pib l i a (el_pos l i) = 0 -> el_pie l i a (el_pos l i) * Q i a = 0) ->
  (forall i, (i < el_n l)%nat -> sumn (el_K l) (fun a => el_pib l i a (el_pos l i) * Q i a) <> 0) ->
  (forall i a, (i < el_n l)%nat -> In a U ->
     post i a = el_pib l i a (el_pos l i) * Q i a / sumn (el_K l) (fun b => el_pib l i b (el_pos l i) * Q i b)) ->
  mipw_value false None m argsort (Fin T) (el_K l) fit (e_rewards l) (e_actions l) (e_embeds l)
    (e_pib l) (e_pie l) arg None true
  = Ok (Fin (avg (el_n l) (fun i =>
      sumn (el_K l) (fun a => el_pie l i a (el_pos l i) * Q i a) /
      sumn (el_K l) (fun a => el_pib l i a (el_pos l i) * Q i a) * el_r l i))).
Proof.
  intros l U post Q fit m argsort T arg H Harg HU Hp Hfit Hin Hz Hne Hpost.
  rewrite (C89_estimated_weights_value l U post) by auto. do 2 f_equal. apply avg_ext. intros i Hi. f_equal.
  apply (est_weight_calibrated l U post (Q i) i); auto; try (intros; eapply Hin; eauto).
  intros u Hu. apply HU in Hu as (j & Hj & <-). apply (acc_a _ (ea_b l H) j Hj).
Qed.

(** Context is compulsory without [p_e_a]. *)
Theorem C89_context_required : forall sn sel m argsort ppf na fit l arg,
  e_accepted l -> position_arg (as_log l) arg ->
  mipw_value sn sel m argsort ppf na fit (e_rewards l) (e_actions l) (e_embeds l) (e_pib l) (e_pie l) arg None false
  = Err ValueError.
Proof.
  intros sn sel m argsort ppf na fit l arg H Harg. unfold mipw_value.
  pose proof (embed_checks_ok l arg true H Harg) as E. unfold embed_checks in *.
  destruct (check_ope_inputs (e_pib l) arg (Some (e_actions l)) (Some (e_rewards l)) None None None); [|discriminate].
  cbn [bind] in *. destruct (check_ope_inputs (e_pie l) arg (Some (e_actions l)) (Some (e_rewards l)) None None None); [|discriminate].
  reflexivity.
Qed.

Example C89_example : e_accepted ex_elog /\ logged_actions ex_elog [0; 1]%nat /\
  (forall i a, (i < 3)%nat -> (a < 2)%nat -> el_pib ex_elog i a (el_pos ex_elog i) <> 0 -> In a [0; 1]%nat) /\
  (forall i, (i < 3)%nat -> sumn 2 (fun a => el_pib ex_elog i a (el_pos ex_elog i) * (1 + INR a)) <> 0).
Proof.
  split. apply ex_elog_accepted. split; [|split].
  - split. repeat constructor; simpl; intros; try lia; intuition; subst; lia.
    intros a. simpl. split.
    + intros [<-|[<-|[]]]. exists 0%nat. split; auto; lia. exists 1%nat. split; auto; lia.
    + intros (i & Hi & <-). idx i; simpl; auto; lia.
  - intros i a Hi Ha _. simpl. lia.
  - intros i Hi. simpl. lra.
Qed.

Print Assumptions C47_one_hot_is_ipw.
Print Assumptions C47_one_hot_is_snipw.
Print Assumptions C48_unbiased_independent_dims.
Print Assumptions C48_unbiased_one_dim.
Print Assumptions C49_value.
Print Assumptions C49_biased_for_dependent_dims.
Print Assumptions C50_exact_selection.
Print Assumptions C50_greedy_selection.
Print Assumptions C50_min_dim_too_large_raises.
Print Assumptions C86_embedding_interval_resamples_rounds.
Print Assumptions C89_estimated_weights_value.
Print Assumptions C89_calibrated.
Print Assumptions C89_context_required.
Print Assumptions C90_snmipw_value.
Print Assumptions C90_snmipw_within_reward_range.
Print Assumptions C90_selection_drops_normalization.
Print Assumptions C90_selection_leaves_reward_range.
