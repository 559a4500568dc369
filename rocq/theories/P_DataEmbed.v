(** * P_DataEmbed: the generator with action embeddings (C66). *)

From Coq Require Import String Reals List ZArith Lia Lra Bool Permutation.
From Verif Require Import Num NpList M_Utils M_Estimators M_Data S_Base S_Prob S_Estimators S_Env S_Data
  L_Num L_Base L_Utils L_Prob L_EstProps L_Examples L_Data P_Utils P_Data.
Import ListNotations.
Open Scope R_scope.

(** The importance of the embedding dimensions: zero for the irrelevant ones, which come first. *)
Definition weight (irrelevant : nat) (dirichlet : nat -> R) (k : nat) : R :=
  if le_lt_dec irrelevant k then dirichlet (k - irrelevant)%nat else 0.
(** The mean reward of round i under the embedding e. *)
Definition embed_mean (D : nat) (w : nat -> R) (qe : nat -> nat -> nat -> R) (i : nat) (e : nat -> nat) : R :=
  sumn D (fun k => w k * qe i (e k) k).
(** The embedding of an action: each dimension is drawn independently from its own distribution. *)
Definition embed_dist (D C : nat) (p : nat -> nat -> nat -> R) (a : nat) : dist (list nat) :=
  dprod D (fun k => dtab C (fun c => p a c k)).
(** Every p a . k is a probability distribution over the C categories. *)
Definition category_dists (K C D : nat) (p : nat -> nat -> nat -> R) : Prop :=
  forall a k, (a < K)%nat -> (k < D)%nat -> (forall c, (c < C)%nat -> 0 <= p a c k) /\ sumn C (fun c => p a c k) = 1.

Lemma fold_left_sumn (f : nat -> R) n acc : fold_left (fun acc d => acc + f d) (seq 0 n) acc = acc + sumn n f.
Proof.
  induction n; [cbn; lra|]. rewrite seq_S, fold_left_app, IHn. cbn. lra.
Qed.
Lemma rsum_upto_sumn n f : rsum_upto n f = sumn n f.
Proof. unfold rsum_upto. change (map f (seq 0 n)) with (tab n f). apply Rsum_tab. Qed.
Lemma cat_importance_weight irr di k : cat_importance irr di k = weight irr di k.
Proof. unfold cat_importance, weight. destruct (Nat.ltb_spec k irr), (le_lt_dec irr k); auto; lia. Qed.
Lemma embed_factual_mean D irr di qe e i :
  embed_factual D (cat_importance irr di) qe e i = embed_mean D (weight irr di) qe i e.
Proof.
  unfold embed_factual, embed_mean. rewrite fold_left_sumn. rewrite Rplus_0_l. apply sumn_ext. intros k Hk. rewrite cat_importance_weight. reflexivity.
Qed.
Lemma embed_expected_mean C D irr di qe p i a K : category_dists K C D p -> (a < K)%nat ->
  embed_expected C D (cat_importance irr di) qe p i a =
  expect (embed_dist D C p a) (fun e => embed_mean D (weight irr di) qe i (fun k => nth k e 0%nat)).
Proof.
  intros Hp Ha. unfold embed_expected, embed_mean, embed_dist.
  rewrite (expect_dprod_sumn D (fun k => dtab C (fun c => p a c k)) (fun k c => weight irr di k * qe i c k) 0%nat).
  - rewrite rsum_upto_sumn. apply sumn_ext. intros k Hk. rewrite rsum_upto_sumn. rewrite expect_dtab. rewrite cat_importance_weight.
    rewrite Rmult_comm, <- sumn_scal. apply sumn_ext. intros c Hc. ring.
  - intros k Hk. apply is_dist_dtab; apply Hp; auto.
Qed.

Lemma skipn_tab {A} h n (f : nat -> A) : skipn h (tab n f) = tab (n - h) (fun j => f (h + j)%nat).
Proof.
  unfold tab. revert h f. induction n; intros h f; [destruct h; reflexivity|]. destruct h as [|h]; [reflexivity|].
  cbn [seq map skipn Nat.sub]. rewrite <- seq_shift, map_map. rewrite IHn. reflexivity.
Qed.

(** Embedding k of round i: the inverse-CDF draw at the i-th uniform number of the generator seeded with k. *)
Definition embedded_by (n K C D : nat) (uniform : nat -> nat -> R) (p : nat -> nat -> nat -> R) (act : nat -> nat) (e : nat -> nat -> nat) : Prop :=
  forall i k, (i < n)%nat -> (k < D)%nat -> (e i k < C)%nat /\ 0 < p (act i) (e i k) k /\
    forall c, (c < C)%nat -> (e i k = c <-> sumn c (fun c' => p (act i) c' k) <= uniform k i < sumn c (fun c' => p (act i) c' k) + p (act i) c k).

Lemma embed_draws n K C D uniform p act : category_dists K C D p -> (forall i, (i < n)%nat -> (act i < K)%nat) ->
  (forall k i, (k < D)%nat -> (i < n)%nat -> 0 <= uniform k i < 1) ->
  exists e, embedded_by n K C D uniform p act e /\
    map (embed_draw uniform C p (tab n act)) (seq 0 D) = tab D (fun k => tab n (fun i => e i k)).
Proof.
  intros Hp Ha Hu.
  assert (H : forall k, exists col : nat -> nat, (k < D)%nat ->
    embed_draw uniform C p (tab n act) k = tab n col /\
    forall i, (i < n)%nat -> (col i < C)%nat /\ 0 < p (act i) (col i) k /\
    forall c, (c < C)%nat -> (col i = c <-> sumn c (fun c' => p (act i) c' k) <= uniform k i < sumn c (fun c' => p (act i) c' k) + p (act i) c k)).
  { intros k. destruct (le_lt_dec D k) as [L|L]; [exists (fun _ => 0%nat); intros; lia|].
    destruct (C03_inverse_cdf n C (fun i c => p (act i) c k) (uniform k)) as (col & E & H1 & H2).
    - intros i c Hi Hc. apply (Hp (act i) k); auto.
    - intros i Hi. apply (Hp (act i) k); auto.
    - intros i Hi. apply Hu; auto.
    - exists col. intros _. split.
      + unfold embed_draw. rewrite tab_length, map_tab. change (map (uniform k) (seq 0 n)) with (tab n (uniform k)). rewrite <- E. reflexivity.
      + intros i Hi. destruct (H1 i Hi) as (A & _ & B). auto. }
  assert (G : forall m, exists e : nat -> nat -> nat, forall k, (k < m)%nat -> (k < D)%nat ->
    embed_draw uniform C p (tab n act) k = tab n (fun i => e i k) /\
    forall i, (i < n)%nat -> (e i k < C)%nat /\ 0 < p (act i) (e i k) k /\
    forall c, (c < C)%nat -> (e i k = c <-> sumn c (fun c' => p (act i) c' k) <= uniform k i < sumn c (fun c' => p (act i) c' k) + p (act i) c k)).
  { induction m as [|m (e & IH)]; [exists (fun _ _ => 0%nat); intros; lia|].
    destruct (H m) as (col & Hc). exists (fun i k => if Nat.eqb k m then col i else e i k). intros k Hk HD.
    destruct (Nat.eqb_spec k m) as [->|Hne]; [apply Hc; auto|apply IH; auto; lia]. }
  destruct (G D) as (e & He). exists e. split.
  - intros i k Hi Hk. apply (He k Hk Hk). auto.
  - change (map (embed_draw uniform C p (tab n act)) (seq 0 D)) with (tab D (embed_draw uniform C p (tab n act))).
    apply tab_ext. intros k Hk. apply (He k Hk Hk).
Qed.

(** The whole log of [obtain_batch_bandit_feedback]. The reported expected reward of an action is the expectation, over its
    embedding, of the mean from which rewards are sampled; the returned embeddings and their distributions leave out the
    same first dimensions. *)
Theorem C66_batch : forall uniform argsort d c di qe p n context g binom normal lg,
  sorts argsort -> (forall s i, 0 <= uniform s i < 1) -> (ds_deficient d < ds_K d)%nat -> (0 < n)%nat ->
  category_dists (ds_K d) (ec_cat c) (ec_dim c) p ->
  let w := weight (ec_irrelevant c) di in
  let mean i e := embed_mean (ec_dim c) w qe i e in
  let q i a := expect (embed_dist (ec_dim c) (ec_cat c) p a) (fun e => mean i (fun k => nth k e 0%nat)) in
  logit_table d context n q lg ->
  exists pi act S e, logged_by d n (uniform (ds_seed d)) g lg pi act S /\ embedded_by n (ds_K d) (ec_cat c) (ec_dim c) uniform p act e /\
    let run := embed_batch uniform argsort d c di qe p (Z.of_nat n) context (tabR2 n (ds_K d) g) binom normal in
    let log rewards := {|
      eb_batch := {| b_n := n; b_actions := ds_K d; b_context := context; b_action := tab n act; b_reward := tab n rewards;
        b_expected := tabR2 n (ds_K d) q; b_pi := tab n (fun i => tab (ds_K d) (fun a => [pi i a])); b_pscore := tab n (fun i => pi i (act i)) |};
      eb_embed := tab n (fun i => tab (ec_dim c - ec_hidden c) (fun j => e i (ec_hidden c + j)%nat));
      eb_pea := tab (ds_K d) (fun a => tab (ec_cat c) (fun x => tab (ec_dim c - ec_hidden c) (fun j => p a x (ec_hidden c + j)%nat))) |} in
    (ds_binary d = true -> (forall i, (i < n)%nat -> 0 <= mean i (e i) <= 1) ->
       run = Ok (log (fun i => if binom i (mean i (e i)) then 1 else 0))) /\
    (ds_binary d = true -> (exists i, (i < n)%nat /\ ~ (0 <= mean i (e i) <= 1)) -> run = Err ValueError) /\
    (ds_binary d = false -> run = Ok (log (fun i => mean i (e i) + ds_std d * normal i))).
Proof.
  intros uniform argsort d c di qe p n context g binom normal lg Hs Hu Hd Hn Hp w mean q Hlg.
  destruct (behaviour_draw argsort d n g lg (uniform (ds_seed d)) Hs Hd) as (pi & act & S & Hlog & Eb & Ea); [auto|].
  assert (Ha : forall i, (i < n)%nat -> (act i < ds_K d)%nat) by (intros i Hi; apply (Hlog i Hi)).
  destruct (embed_draws n (ds_K d) (ec_cat c) (ec_dim c) uniform p act Hp Ha) as (e & He & Ee); [auto|].
  exists pi, act, S, e. split; [exact Hlog|]. split; [exact He|]. cbv zeta. unfold embed_batch, check_scalar_Z.
  destruct (Z.ltb_spec (Z.of_nat n) 1); [lia|]. cbn [raise_if bind]. rewrite Nat2Z.id. cbv zeta.
  assert (Eq : map (fun i => map (fun a => embed_expected (ec_cat c) (ec_dim c) (cat_importance (ec_irrelevant c) di) qe p i a) (seq 0 (ds_K d))) (seq 0 n) = tabR2 n (ds_K d) q).
  { unfold tabR2. apply tab_ext. intros i Hi. apply tab_ext. intros a Hai. apply embed_expected_mean with (K := ds_K d); auto. }
  rewrite Eq. rewrite (logits_tab d context n q lg (tabR2 n (ds_K d) q) Hlg eq_refl). rewrite Eb.
  change (map (uniform (ds_seed d)) (seq 0 n)) with (tab n (uniform (ds_seed d))). rewrite Ea. rewrite Ee. rewrite pick_cols_tab by auto.
  replace (map (map (fun v => [v])) (tabR2 n (ds_K d) pi)) with (tab n (fun i => tab (ds_K d) (fun a => [pi i a])))
    by (unfold tabR2; rewrite map_tab; apply tab_ext; intros; rewrite map_tab; reflexivity).
  assert (Erow : forall i, (i < n)%nat -> map (fun col => nth i col 0%nat) (tab (ec_dim c) (fun k => tab n (fun i => e i k))) = tab (ec_dim c) (e i)).
  { intros i Hi. rewrite map_tab. apply tab_ext. intros k Hk. rewrite nth_tab by auto. reflexivity. }
  assert (Ef : map (fun i => embed_factual (ec_dim c) (cat_importance (ec_irrelevant c) di) qe (fun k => nth k (map (fun col => nth i col 0%nat) (tab (ec_dim c) (fun k => tab n (fun i => e i k)))) 0%nat) i) (seq 0 n)
    = tab n (fun i => mean i (e i))).
  { apply tab_ext. intros i Hi. rewrite embed_factual_mean. rewrite Erow by auto. unfold mean, embed_mean. apply sumn_ext. intros k Hk. rewrite nth_tab by auto. reflexivity. }
  rewrite Ef.
  assert (Eo : map (fun i => observed (ec_hidden c) (map (fun col => nth i col 0%nat) (tab (ec_dim c) (fun k => tab n (fun i => e i k))))) (seq 0 n)
    = tab n (fun i => tab (ec_dim c - ec_hidden c) (fun j => e i (ec_hidden c + j)%nat))).
  { apply tab_ext. intros i Hi. rewrite Erow by auto. unfold observed. apply skipn_tab. }
  rewrite Eo.
  assert (Ep : observed_pea (ds_K d) (ec_cat c) (ec_dim c) (ec_hidden c) p
    = tab (ds_K d) (fun a => tab (ec_cat c) (fun x => tab (ec_dim c - ec_hidden c) (fun j => p a x (ec_hidden c + j)%nat)))).
  { unfold observed_pea. apply tab_ext. intros a _. apply tab_ext. intros x _. unfold observed. change (map (fun k => p a x k) (seq 0 (ec_dim c))) with (tab (ec_dim c) (fun k => p a x k)). apply skipn_tab. }
  rewrite Ep.
  change (seq 0 n) with (map (fun i => i) (seq 0 n)) at 1 2 || idtac.
  assert (Ec : forall f : nat * R -> R, map f (combine (seq 0 n) (tab n (fun i => mean i (e i)))) = tab n (fun i => f (i, mean i (e i)))).
  { intros f. replace (seq 0 n) with (tab n (fun i => i)) by (unfold tab; apply map_id). rewrite combine_tab, map_tab. reflexivity. }
  split; [|split]; intros Hb.
  - intros Hr. rewrite Hb. destruct (existsb _ _) eqn:EX.
    + apply existsb_tab in EX as (i & Hi & Ho). apply out_of_range in Ho. specialize (Hr i Hi). lra.
    + cbn [raise_if bind]. rewrite ?map_id. rewrite Ec. reflexivity.
  - intros (i & Hi & Ho). rewrite Hb. destruct (existsb _ _) eqn:EX; [reflexivity|]. exfalso.
    assert (T : existsb (fun p => (Rltb p 0 || Rltb 1 p)%bool) (tab n (fun i => mean i (e i))) = true).
    { apply existsb_tab. exists i. split; auto. apply out_of_range. lra. }
    congruence.
  - rewrite Hb. cbn [bind]. rewrite ?map_id. rewrite Ec. reflexivity.
Qed.

Theorem C66_no_rounds : forall uniform argsort d c di qe p n context g binom normal, (n < 1)%Z ->
  embed_batch uniform argsort d c di qe p n context g binom normal = Err ValueError.
Proof. intros. unfold embed_batch, check_scalar_Z. destruct (Z.ltb_spec n 1); [reflexivity|lia]. Qed.

(** The constructor: one dimension is added, and it is both hidden and irrelevant. *)
Theorem C66_init : forall n_cat latent n_dim n_hidden n_irr std,
  embed_init n_cat latent n_dim n_hidden n_irr (Fin std) =
  if andb (andb (andb (1 <=? n_cat)%Z (1 <=? latent)%Z) (andb (1 <=? n_dim)%Z (Rleb 0 std)))
          (andb (andb (0 <=? n_hidden)%Z (n_hidden <=? n_dim)%Z) (andb (0 <=? n_irr)%Z (n_irr <=? n_dim)%Z))
  then Ok {| ec_cat := Z.to_nat n_cat; ec_dim := S (Z.to_nat n_dim); ec_hidden := S (Z.to_nat n_hidden); ec_irrelevant := S (Z.to_nat n_irr) |}
  else Err ValueError.
Proof.
  intros. unfold embed_init, check_scalar_Z, check_scalar, nlt. cbn [bind].
  repeat match goal with
  | |- context [raise_if (?a <? ?b)%Z _] => destruct (Z.ltb_spec a b); cbn [raise_if bind]
  | |- context [(?a <=? ?b)%Z] => destruct (Z.leb_spec a b); try lia; cbn [andb]
  end; try reflexivity; try lia.
  all: unfold Rleb, Rltb; destruct (Rle_dec 0 std), (Rlt_dec std 0); try lra; cbn [raise_if bind andb]; try reflexivity.
  all: repeat match goal with
  | |- context [raise_if (?a <? ?b)%Z _] => destruct (Z.ltb_spec a b); cbn [raise_if bind]
  | |- context [(?a <=? ?b)%Z] => destruct (Z.leb_spec a b); try lia; cbn [andb]
  end; try reflexivity; try lia.
  f_equal. f_equal; rewrite Z2Nat.inj_add by lia; change (Z.to_nat 1) with 1%nat; lia.
Qed.

(** Rewards are a mixture of the per-dimension rewards, so means in [0,1] stay in [0,1] and no binary batch is refused. *)
Theorem C66_mean_range : forall D irr di qe i e lo hi, (irr <= D)%nat ->
  (forall j, (j < D - irr)%nat -> 0 <= di j) -> sumn (D - irr) di = 1 ->
  (forall k, (k < D)%nat -> lo <= qe i (e k) k <= hi) ->
  lo <= embed_mean D (weight irr di) qe i e <= hi.
Proof.
  intros D irr di qe i e lo hi HD Hdi H1 Hq. unfold embed_mean.
  assert (W : forall k, (k < D)%nat -> 0 <= weight irr di k).
  { intros k Hk. unfold weight. destruct (le_lt_dec irr k); [apply Hdi; lia|lra]. }
  assert (Sm : sumn D (weight irr di) = 1).
  { replace D with (irr + (D - irr))%nat by lia. rewrite sumn_app.
    rewrite (sumn_zero irr) by (intros k Hk; unfold weight; destruct (le_lt_dec irr k); [lia|reflexivity]).
    rewrite Rplus_0_l. rewrite <- H1. apply sumn_ext. intros j Hj. unfold weight. destruct (le_lt_dec irr (irr + j)); [f_equal; lia|lia]. }
  assert (B : forall x, sumn D (fun k => weight irr di k * x) = x) by (intros x; rewrite sumn_scal_r, Sm; lra).
  split; [rewrite <- (B lo) at 1|rewrite <- (B hi)]; apply sumn_le; intros k Hk; apply Rmult_le_compat_l; auto; apply Hq; auto.
Qed.

(** With no more hidden than irrelevant dimensions the mean reward depends on the returned dimensions only: the action has
    no effect on the reward other than through the observed embedding. *)
Theorem C66_no_direct_effect : forall D hidden irr di qe i e e', (hidden <= irr)%nat ->
  (forall k, (hidden <= k)%nat -> (k < D)%nat -> e k = e' k) ->
  embed_mean D (weight irr di) qe i e = embed_mean D (weight irr di) qe i e'.
Proof.
  intros D hidden irr di qe i e e' H He. unfold embed_mean. apply sumn_ext. intros k Hk. unfold weight.
  destruct (le_lt_dec irr k); [rewrite He by lia; reflexivity|ring].
Qed.

(** With more hidden than irrelevant dimensions it may depend on a hidden one. *)
Theorem C66_direct_effect : forall D hidden irr, (irr < hidden <= D)%nat ->
  exists di qe e e', (forall j, 0 <= di j) /\ sumn (D - irr) di = 1 /\ (forall i c k, 0 <= qe i c k <= 1) /\
    (forall k, (hidden <= k)%nat -> e k = e' k) /\
    embed_mean D (weight irr di) qe 0%nat e <> embed_mean D (weight irr di) qe 0%nat e'.
Proof.
  intros D hidden irr H. exists (fun j => if Nat.eqb j 0 then 1 else 0), (fun _ c _ => if Nat.eqb c 0 then 0 else 1), (fun _ => 0%nat), (fun k => if Nat.eqb k irr then 1%nat else 0%nat).
  split; [intros j; destruct (Nat.eqb j 0); lra|]. split.
  { rewrite (sumn_term _ _ 0%nat); [reflexivity|lia|intros j Hj Hne; destruct (Nat.eqb_spec j 0); [lia|reflexivity]]. }
  split; [intros _ c _; destruct (Nat.eqb c 0); lra|]. split; [intros k Hk; destruct (Nat.eqb_spec k irr); [lia|reflexivity]|].
  unfold embed_mean. rewrite (sumn_zero D) by (intros; cbn; ring).
  rewrite (sumn_term _ _ irr); [|lia|intros j Hj Hne; destruct (Nat.eqb_spec j irr); [lia|cbn; ring]].
  rewrite Nat.eqb_refl. unfold weight. destruct (le_lt_dec irr irr); [|lia]. rewrite Nat.sub_diag. cbn. lra.
Qed.

(** The seed of embedding dimension k is k itself, so a dataset whose random_state is k draws its actions and that dimension
    from the same numbers: with the uniform logging policy and as many categories as actions, all equally likely, the
    category equals the action in every round, although it is reported to be independent of it. *)
Theorem C66_shared_seed : forall uniform argsort d c di qe p n context g lg binom normal b,
  sorts argsort -> (forall s i, 0 <= uniform s i < 1) -> (0 < ds_K d)%nat -> (0 < n)%nat -> ds_deficient d = 0%nat -> ds_beta d = 0 ->
  category_dists (ds_K d) (ec_cat c) (ec_dim c) p ->
  logit_table d context n (fun i a => expect (embed_dist (ec_dim c) (ec_cat c) p a) (fun e => embed_mean (ec_dim c) (weight (ec_irrelevant c) di) qe i (fun k => nth k e 0%nat))) lg ->
  ec_cat c = ds_K d -> (ec_hidden c <= ds_seed d < ec_dim c)%nat ->
  (forall a x, (a < ds_K d)%nat -> (x < ds_K d)%nat -> p a x (ds_seed d) = / INR (ds_K d)) ->
  embed_batch uniform argsort d c di qe p (Z.of_nat n) context (tabR2 n (ds_K d) g) binom normal = Ok b ->
  forall i, (i < n)%nat -> nth (ds_seed d - ec_hidden c) (nth i (eb_embed b) []) 0%nat = nth i (b_action (eb_batch b)) 0%nat.
Proof.
  intros uniform argsort d c di qe p n context g lg binom normal b Hs Hu HK Hn Hdef Hbeta Hp Hlg HC Hk Hpu Hrun i Hi.
  destruct (C66_batch uniform argsort d c di qe p n context g binom normal lg Hs Hu ltac:(lia) Hn Hp Hlg) as (pi & act & S & e & Hlog & He & Hok).
  cbv zeta in Hok. destruct Hok as (O1 & O2 & O3).
  assert (Same : e i (ds_seed d) = act i).
  { destruct (Hlog i Hi) as (Hsel & Hsm & _ & _ & _ & Hact & _ & Hchar). destruct (He i (ds_seed d) Hi ltac:(lia)) as (_ & _ & Hech).
    assert (Pi : forall a, (a < ds_K d)%nat -> pi i a = / INR (ds_K d)).
    { destruct Hsel as (Hnd & HLn & Hin & _). rewrite Hdef, Nat.sub_0_r in HLn.
      assert (Sin : forall a, (a < ds_K d)%nat -> In a (S i)).
      { intros a Ha. apply (NoDup_length_incl Hnd (l' := seq 0 (ds_K d))); [rewrite seq_length; lia|intros x Hx; apply in_seq; specialize (Hin x Hx); lia|apply in_seq; lia]. }
      intros a Ha. destruct Hsm as (Hin' & _). rewrite (Hin' a Ha (Sin a Ha)). unfold boltzmann_on, sum_over. rewrite Hbeta.
      rewrite Rmult_0_l, exp_0. rewrite (map_ext _ (fun _ => 1)) by (intros; rewrite Rmult_0_l, exp_0; reflexivity).
      replace (fold_right Rplus 0 (map (fun _ => 1) (S i))) with (INR (length (S i))).
      - rewrite HLn. unfold Rdiv. ring.
      - generalize (S i). clear. induction l; [reflexivity|]. cbn [length map fold_right]. rewrite S_INR, IHl. ring. }
    apply Hech; [lia|]. destruct (Hchar (act i) Hact) as (Hc & _). specialize (Hc eq_refl).
    rewrite (sumn_ext (act i) _ (pi i)) by (intros x Hx; rewrite Hpu, Pi by lia; reflexivity).
    rewrite Hpu by lia. rewrite <- (Pi (act i)) by lia. exact Hc. }
  assert (Fin : exists r, b = {|
      eb_batch := {| b_n := n; b_actions := ds_K d; b_context := context; b_action := tab n act; b_reward := tab n r;
        b_expected := tabR2 n (ds_K d) (fun i a => expect (embed_dist (ec_dim c) (ec_cat c) p a) (fun e => embed_mean (ec_dim c) (weight (ec_irrelevant c) di) qe i (fun k => nth k e 0%nat)));
        b_pi := tab n (fun i => tab (ds_K d) (fun a => [pi i a])); b_pscore := tab n (fun i => pi i (act i)) |};
      eb_embed := tab n (fun i => tab (ec_dim c - ec_hidden c) (fun j => e i (ec_hidden c + j)%nat));
      eb_pea := tab (ds_K d) (fun a => tab (ec_cat c) (fun x => tab (ec_dim c - ec_hidden c) (fun j => p a x (ec_hidden c + j)%nat))) |}).
  { destruct (ds_binary d).
    - destruct (Classical_Prop.classic (exists i, (i < n)%nat /\ ~ (0 <= embed_mean (ec_dim c) (weight (ec_irrelevant c) di) qe i (e i) <= 1))) as [B|B].
      + rewrite (O2 eq_refl B) in Hrun. discriminate.
      + rewrite (O1 eq_refl) in Hrun; [injection Hrun as <-; eexists; reflexivity|].
        intros j Hj. apply Classical_Prop.NNPP. intros X. apply B. eauto.
    - rewrite (O3 eq_refl) in Hrun. injection Hrun as <-. eexists; reflexivity. }
  destruct Fin as (r & ->). cbn [eb_embed eb_batch b_action]. rewrite !nth_tab by lia. rewrite <- Same. f_equal. lia.
Qed.

(** ** Concrete cases *)

(** Two actions, one declared dimension with two equally likely categories, random_state 1, mean rewards 0 and 1. *)
Definition ex_embed : synth := mkSynth 2 1 true None [] 1 0 0 None 1 1.
Example C66_example :
  embed_init 2 1 1 0 0 (Fin 1) = Ok {| ec_cat := 2; ec_dim := 2; ec_hidden := 1; ec_irrelevant := 1 |} /\
  category_dists 2 2 2 (fun _ _ _ => / 2) /\ (forall j, (j < 2 - 1)%nat -> 0 <= 1) /\ sumn (2 - 1) (fun _ => 1) = 1 /\
  embed_mean 2 (weight 1 (fun _ => 1)) (fun _ c _ => INR c) 0%nat (fun _ => 1%nat) = 1 /\
  expect (embed_dist 2 2 (fun _ _ _ => / 2) 0%nat) (fun e => embed_mean 2 (weight 1 (fun _ => 1)) (fun _ c _ => INR c) 0%nat (fun k => nth k e 0%nat)) = 1 / 2.
Proof.
  split; [rewrite C66_init; cbn; rewrite (proj2 (Rleb_true 0 1)) by lra; reflexivity|].
  split; [intros a k _ _; split; [intros; lra|cbn; lra]|]. split; [intros; lra|]. split; [cbn; lra|].
  split; [cbn; lra|]. rewrite <- (embed_expected_mean 2 2 1 (fun _ => 1) (fun _ c _ => INR c) (fun _ _ _ => / 2) 0%nat 0%nat 2).
  - unfold embed_expected, rsum_upto, cat_importance. cbn. lra.
  - intros a k _ _; split; [intros; lra|cbn; lra].
  - lia.
Qed.

Example C66_shared_seed_example : forall n u, (0 < n)%nat -> (forall s i, 0 <= u s i < 1) ->
  exists b, embed_batch u insertion_argsort ex_embed {| ec_cat := 2; ec_dim := 2; ec_hidden := 1; ec_irrelevant := 1 |} (fun _ => 1)
      (fun _ c _ => INR c) (fun _ _ _ => / 2) (Z.of_nat n) (repeat [0] n) (tabR2 n 2 (fun _ _ => 0)) (fun _ p => Rltb (1/2) p) (fun _ => 0) = Ok b /\
    eb_embed b = map (fun a => [a]) (b_action (eb_batch b)).
Proof.
  intros n u Hn Hu.
  assert (CD : category_dists 2 2 2 (fun _ _ _ => / 2)) by (intros a k _ _; split; [intros; lra|cbn; lra]).
  set (c := {| ec_cat := 2; ec_dim := 2; ec_hidden := 1; ec_irrelevant := 1 |}).
  set (q := fun i a : nat => expect (embed_dist (ec_dim c) (ec_cat c) (fun _ _ _ => / 2) a) (fun e => embed_mean (ec_dim c) (weight (ec_irrelevant c) (fun _ => 1)) (fun _ c _ => INR c) i (fun k => nth k e 0%nat))).
  assert (LT : logit_table ex_embed (repeat [0] n) n q q) by (intros i a _ _; reflexivity).
  destruct (C66_batch u insertion_argsort ex_embed c (fun _ => 1) (fun _ c _ => INR c) (fun _ _ _ => / 2) n (repeat [0] n) (fun _ _ => 0)
    (fun _ p => Rltb (1/2) p) (fun _ => 0) q insertion_argsort_sorts Hu ltac:(cbn; lia) Hn CD LT) as (pi & act & S & e & Hlog & He & Hok & _).
  cbv zeta in Hok.
  assert (Hr : forall i, (i < n)%nat -> 0 <= embed_mean (ec_dim c) (weight (ec_irrelevant c) (fun _ => 1)) (fun _ c _ => INR c) i (e i) <= 1).
  { intros i Hi. apply (C66_mean_range 2 1); [lia|intros; lra|cbn; lra|]. intros k Hk. destruct (He i k Hi Hk) as (B & _). cbn in B. generalize dependent (e i k). intros x Hx. destruct x as [|[|x]]; [cbn; lra|cbn; lra|lia]. }
  specialize (Hok eq_refl Hr). eexists. split; [exact Hok|]. cbn [eb_embed eb_batch b_action]. rewrite map_tab. apply tab_ext. intros i Hi.
  pose proof (C66_shared_seed u insertion_argsort ex_embed c (fun _ => 1) (fun _ c _ => INR c) (fun _ _ _ => / 2) n (repeat [0] n) (fun _ _ => 0) q (fun _ p => Rltb (1/2) p) (fun _ => 0) _
    insertion_argsort_sorts Hu ltac:(cbn; lia) Hn eq_refl eq_refl CD LT eq_refl ltac:(cbn; lia) ltac:(intros; cbn [ex_embed ds_K]; rewrite INR_IZR_INZ; reflexivity) Hok i Hi) as H.
  cbn [eb_embed eb_batch b_action] in H. rewrite !nth_tab in H by (auto; cbn; lia). cbn in H |- *. unfold tab. cbn. f_equal. exact H.
Qed.

Print Assumptions C66_batch.
Print Assumptions C66_no_rounds.
Print Assumptions C66_init.
Print Assumptions C66_mean_range.
Print Assumptions C66_no_direct_effect.
Print Assumptions C66_direct_effect.
Print Assumptions C66_shared_seed.
