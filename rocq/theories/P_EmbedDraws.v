(** * P_EmbedDraws: property C157 (logs with action embeddings over the generator's own randomness) *)

From Coq Require Import String Reals List ZArith Lia Lra Bool Permutation.
From Coquelicot Require Import Coquelicot.
From Verif Require Import Num NpList M_Utils M_Estimators M_Embed M_Data S_Base S_Prob S_Estimators S_Env S_Embed S_Data S_Draws
  L_Num L_Base L_Utils L_Prob L_Estimators L_EstProps L_Unbiased L_Examples L_Data L_Draws L_Embed L_EmbedUnb P_Utils P_Estimators P_Data P_Draws P_DrawLaw P_DataEmbed
  P_Embed P_SlateDraws P_MultiDraws P_Robust P_DataMulti S_Robust.
Import ListNotations.
Open Scope R_scope.

(** ** Specification *)

(** Three batches of draws: for the actions, for the [D] embedding dimensions of every round, and for the rewards. *)
Definition uniform_mean3 (n D : nat) (F : (nat -> R) -> (nat -> R) -> (nat -> R) -> R) (v : R) : Prop :=
  exists G, (forall us, unit_draws us -> exists H, (forall ws, unit_draws ws -> uniform_mean n (F us ws) (H ws)) /\ uniform_mean (n * D) H (G us)) /\ uniform_mean n G v.
(** [X] is what [est] returns on the log generated from the draws, and it averages to [v]. *)
Definition estimates3 {B : Type} (n D : nat) (generate : (nat -> R) -> (nat -> R) -> (nat -> R) -> res B) (est : B -> res num) (v : R) : Prop :=
  exists X, (forall us ws vs, unit_draws us -> unit_draws ws -> unit_draws vs -> exists b, generate us ws vs = Ok b /\ est b = Ok (Fin (X us ws vs))) /\ uniform_mean3 n D X v.
(** A reward of 1 with probability [p] (forced into [0, 1]), of 0 otherwise. *)
Definition bernoulli (p : R) : dist R := let q := Rmax 0 (Rmin 1 p) in [(1, q); (0, 1 - q)].
(** An embedding of [D] categories out of [C]. *)
Definition is_embedding (C D : nat) (v : list nat) : Prop := length v = D /\ forall k, (k < D)%nat -> (nth k v 0 < C)%nat.

(** The process behind the observed part of the log: the first [h] of the [D] dimensions are not observed; [m i v] is the mean reward of
    round i when the observed dimensions are [v]. *)
Definition embedding_process (n K C D h : nat) (p : nat -> nat -> nat -> R) (pi pe : nat -> nat -> R) (m : nat -> list nat -> R) : eenv nat :=
  let at_round x := Nat.min x (n - 1) in
  mkEEnv n K 1 C (D - h) (fun _ => 0%nat) (fun i => [(i, 1)]) (fun x _ a => pi (at_round x) a) (fun x _ a => pe (at_round x) a)
    (fun a => dprod (D - h) (fun k => dtab C (fun c => p a c (h + k)%nat))) (fun x _ v => bernoulli (m (at_round x) v)).

(** The rounds of a batch with their observed embeddings. *)
Definition embedded_rounds (b : ebatch) : list (nat * nat * list nat * R) :=
  tab (b_n (eb_batch b)) (fun i => (i, nth i (b_action (eb_batch b)) 0%nat, nth i (eb_embed b) [], nth i (b_reward (eb_batch b)) 0)).

(** ** The batch in terms of the draws *)

Definition drawn_category (C : nat) (p : nat -> nat -> nat -> R) (a k : nat) (u : R) : nat := sample_action_row (tab C (fun c => p a c k)) u.

Lemma embed_of_draws argsort d c di qe p n context g lg :
  sorts argsort -> (ds_deficient d < ds_K d)%nat -> (0 < n)%nat -> category_dists (ds_K d) (ec_cat c) (ec_dim c) p ->
  let mean i e := embed_mean (ec_dim c) (P_DataEmbed.weight (ec_irrelevant c) di) qe i (fun k => nth k e 0%nat) in
  let q i a := expect (embed_dist (ec_dim c) (ec_cat c) p a) (mean i) in
  logit_table d context n q lg -> ds_binary d = true ->
  (forall i v, (i < n)%nat -> is_embedding (ec_cat c) (ec_dim c) v -> 0 <= mean i v <= 1) ->
  exists pi : nat -> nat -> R,
    (forall i a, (i < n)%nat -> (a < ds_K d)%nat -> 0 <= pi i a) /\ (forall i, (i < n)%nat -> sumn (ds_K d) (pi i) = 1) /\
    (exists S, forall i, (i < n)%nat -> selected (ds_K d) (ds_K d - ds_deficient d) (g i) (S i) /\ softmax_on (ds_K d) (S i) (ds_beta d) (lg i) (pi i)) /\
    forall uniform binom normal, (forall s i, 0 <= uniform s i < 1) ->
      let act i := sample_action_row (tab (ds_K d) (pi i)) (uniform (ds_seed d) i) in
      let emb i := tab (ec_dim c) (fun k => drawn_category (ec_cat c) p (act i) k (uniform k i)) in
      embed_batch uniform argsort d c di qe p (Z.of_nat n) context (tabR2 n (ds_K d) g) binom normal =
      Ok {| eb_batch := {| b_n := n; b_actions := ds_K d; b_context := context; b_action := tab n act; b_reward := tab n (fun i => if binom i (mean i (emb i)) then 1 else 0);
              b_expected := tabR2 n (ds_K d) q; b_pi := tab n (fun i => tab (ds_K d) (fun a => [pi i a])); b_pscore := tab n (fun i => pi i (act i)) |};
            eb_embed := tab n (fun i => skipn (ec_hidden c) (emb i));
            eb_pea := tab (ds_K d) (fun a => tab (ec_cat c) (fun x => tab (ec_dim c - ec_hidden c) (fun j => p a x (ec_hidden c + j)%nat))) |}.
Proof.
  intros Hs Hd Hn Hp mean q Hlg Hb Hm.
  destruct (behaviour_ok argsort n (ds_K d) (ds_deficient d) (fun _ => ds_beta d) g lg Hs Hd) as (pi & S & EB & H).
  assert (D : forall i, (i < n)%nat -> (forall a, (a < ds_K d)%nat -> 0 <= pi i a) /\ sumn (ds_K d) (pi i) = 1).
  { intros i Hi. destruct (H i Hi) as (Hsel & Hsm & Hr).
    destruct (softmax_on_dist (ds_K d) (S i) (ds_beta d) (lg i) (pi i) Hsm) as (D1 & D2 & _); eauto.
    destruct Hsel as (_ & HL' & _). intros E0. rewrite E0 in HL'. cbn in HL'. lia. }
  exists pi. split; [intros i a Hi; apply D; auto|]. split; [intros i Hi; apply D; auto|]. split; [exists S; intros i Hi; destruct (H i Hi) as (A1 & A2 & _); auto|].
  intros uniform binom normal Hu act emb.
  assert (A : forall i, (i < n)%nat -> (act i < ds_K d)%nat) by (intros i Hi; apply sampled_action; auto; apply D; auto).
  assert (Em : forall i, (i < n)%nat -> is_embedding (ec_cat c) (ec_dim c) (emb i)).
  { intros i Hi. split; [apply tab_length|]. intros k Hk. unfold emb. rewrite nth_tab by auto. destruct (Hp (act i) k (A i Hi) Hk) as [H0 H1]. apply sampled_action; auto. }
  unfold embed_batch, check_scalar_Z. destruct (Z.ltb_spec (Z.of_nat n) 1); [lia|]. cbn [raise_if bind]. rewrite Nat2Z.id. cbv zeta.
  assert (Eq : map (fun i => map (fun a => embed_expected (ec_cat c) (ec_dim c) (cat_importance (ec_irrelevant c) di) qe p i a) (seq 0 (ds_K d))) (seq 0 n) = tabR2 n (ds_K d) q).
  { unfold tabR2. apply tab_ext. intros i Hi. apply tab_ext. intros a Hai. apply embed_expected_mean with (K := ds_K d); auto. }
  rewrite Eq. rewrite (logits_tab d context n q lg (tabR2 n (ds_K d) q) Hlg eq_refl). rewrite repeat_is_tab, EB.
  change (map (uniform (ds_seed d)) (seq 0 n)) with (tab n (uniform (ds_seed d))).
  assert (Ea : sample_action_fast (tabR2 n (ds_K d) pi) (tab n (uniform (ds_seed d))) = tab n act).
  { unfold sample_action_fast, tabR2. rewrite combine_tab, map_tab. reflexivity. }
  rewrite Ea, pick_cols_tab by auto.
  assert (Ee : map (embed_draw uniform (ec_cat c) p (tab n act)) (seq 0 (ec_dim c)) = tab (ec_dim c) (fun k => tab n (fun i => drawn_category (ec_cat c) p (act i) k (uniform k i)))).
  { apply tab_ext. intros k Hk. unfold embed_draw. rewrite tab_length. change (map (uniform k) (seq 0 n)) with (tab n (uniform k)). rewrite map_tab. unfold sample_action_fast. rewrite combine_tab, map_tab. reflexivity. }
  rewrite Ee.
  replace (map (map (fun v => [v])) (tabR2 n (ds_K d) pi)) with (tab n (fun i => tab (ds_K d) (fun a => [pi i a])))
    by (unfold tabR2; rewrite map_tab; apply tab_ext; intros; rewrite map_tab; reflexivity).
  assert (Erow : forall i, (i < n)%nat -> map (fun col => nth i col 0%nat) (tab (ec_dim c) (fun k => tab n (fun i => drawn_category (ec_cat c) p (act i) k (uniform k i)))) = emb i).
  { intros i Hi. rewrite map_tab. apply tab_ext. intros k Hk. rewrite nth_tab by auto. reflexivity. }
  assert (Ef : map (fun i => embed_factual (ec_dim c) (cat_importance (ec_irrelevant c) di) qe
       (fun k => nth k (map (fun col => nth i col 0%nat) (tab (ec_dim c) (fun k => tab n (fun i => drawn_category (ec_cat c) p (act i) k (uniform k i))))) 0%nat) i) (seq 0 n)
    = tab n (fun i => mean i (emb i))).
  { apply tab_ext. intros i Hi. rewrite embed_factual_mean. rewrite Erow by auto. reflexivity. }
  rewrite Ef, Hb.
  assert (Eo : map (fun i => observed (ec_hidden c) (map (fun col => nth i col 0%nat) (tab (ec_dim c) (fun k => tab n (fun i => drawn_category (ec_cat c) p (act i) k (uniform k i)))))) (seq 0 n)
    = tab n (fun i => skipn (ec_hidden c) (emb i))).
  { apply tab_ext. intros i Hi. rewrite Erow by auto. reflexivity. }
  rewrite Eo.
  assert (Ep : observed_pea (ds_K d) (ec_cat c) (ec_dim c) (ec_hidden c) p
    = tab (ds_K d) (fun a => tab (ec_cat c) (fun x => tab (ec_dim c - ec_hidden c) (fun j => p a x (ec_hidden c + j)%nat)))).
  { unfold observed_pea. apply tab_ext. intros a _. apply tab_ext. intros x _. unfold observed. change (map (fun k => p a x k) (seq 0 (ec_dim c))) with (tab (ec_dim c) (fun k => p a x k)). apply skipn_tab. }
  rewrite Ep. destruct (existsb _ _) eqn:EX.
  { apply existsb_tab in EX as (i & Hi & Ho). apply out_of_range in Ho. specialize (Hm i (emb i) Hi (Em i Hi)). lra. }
  cbn [raise_if bind].
  assert (Ec : forall f : nat * R -> R, map f (combine (seq 0 n) (tab n (fun i => mean i (emb i)))) = tab n (fun i => f (i, mean i (emb i)))).
  { intros f. replace (seq 0 n) with (tab n (fun i => i)) by (unfold tab; apply map_id). rewrite combine_tab, map_tab. reflexivity. }
  rewrite Ec. reflexivity.
Qed.

(** ** The law of the full log *)

Definition full_round (K C D : nat) (p : nat -> nat -> nat -> R) (pi : nat -> nat -> R) (m : nat -> list nat -> R) (i : nat) : dist (nat * nat * list nat * R) :=
  dbind (dtab K (pi i)) (fun a => dbind (embed_dist D C p a) (fun v => dmap (fun r => (i, a, v, r)) (bernoulli (m i v)))).

Lemma bernoulli_in p : 0 <= p <= 1 -> bernoulli p = [(1, p); (0, 1 - p)].
Proof. intros H. unfold bernoulli. rewrite Rmin_right by lra. rewrite Rmax_right by lra. reflexivity. Qed.
Lemma bernoulli_dist p : is_dist (bernoulli p).
Proof.
  unfold bernoulli. pose proof (Rmax_l 0 (Rmin 1 p)). assert (Rmax 0 (Rmin 1 p) <= 1) by (apply Rmax_lub; [lra|apply Rmin_l]).
  split; [intros a w [[= <- <-]|[[= <- <-]|[]]]; lra|]. cbn. lra.
Qed.

Definition full_log (n K C D : nat) (coin : R -> R -> bool) (p : nat -> nat -> nat -> R) (pi : nat -> nat -> R) (m : nat -> list nat -> R) (us ws vs : nat -> R) : list (nat * nat * list nat * R) :=
  tab n (fun i => let a := sample_action_row (tab K (pi i)) (us i) in let v := tab D (fun k => drawn_category C p a k (ws (i * D + k)%nat)) in
    (i, a, v, if coin (vs i) (m i v) then 1 else 0)).

Lemma drawn_embedding K C D p a (us : nat -> R) : category_dists K C D p -> (a < K)%nat -> (forall k, 0 < us k < 1) -> is_embedding C D (tab D (fun k => drawn_category C p a k (us k))) /\
  forall k, (k < D)%nat -> 0 < p a (drawn_category C p a k (us k)) k.
Proof.
  intros Hp Ha Hu. split; [split; [apply tab_length|]; intros k Hk; rewrite nth_tab by auto|]; try intros k Hk; destruct (Hp a k Ha Hk) as [H0 H1];
    apply (sampled_action C (fun c => p a c k)); auto; specialize (Hu k); lra.
Qed.

Lemma embedding_mean K C D p a g : category_dists K C D p -> (a < K)%nat ->
  uniform_mean D (fun ws => g (tab D (fun k => drawn_category C p a k (ws k)))) (expect (embed_dist D C p a) g).
Proof.
  intros Hp Ha. apply (mean_dprod D (fun k => dtab C (fun c => p a c k)) (fun k u => drawn_category C p a k u) g).
  intros k gg Hk. destruct (Hp a k Ha Hk) as [H0 H1]. rewrite expect_dtab. rewrite (sumn_ext _ (fun c => gg c * p a c k) (fun c => p a c k * gg c)) by (intros; ring).
  apply (sampler_mean C (fun c => p a c k) gg); auto.
Qed.

Lemma full_law n K C D coin p pi m : fair_coin coin -> possible_coin coin ->
  (forall i a, (i < n)%nat -> (a < K)%nat -> 0 <= pi i a) -> (forall i, (i < n)%nat -> sumn K (pi i) = 1) -> category_dists K C D p ->
  (forall i v, (i < n)%nat -> is_embedding C D v -> 0 <= m i v <= 1) ->
  (forall us ws vs, unit_draws us -> unit_draws ws -> unit_draws vs -> exists w, In (full_log n K C D coin p pi m us ws vs, w) (dprod n (full_round K C D p pi m)) /\ w <> 0) /\
  forall F, uniform_mean3 n D (fun us ws vs => F (full_log n K C D coin p pi m us ws vs)) (expect (dprod n (full_round K C D p pi m)) F).
Proof.
  intros Hcoin Hposs P0 P1 Hp Hm.
  set (act := fun (us : nat -> R) i => sample_action_row (tab K (pi i)) (us i)).
  set (emb := fun (us ws : nat -> R) i => tab D (fun k => drawn_category C p (act us i) k (ws (i * D + k)%nat))).
  assert (HA : forall us, unit_draws us -> forall i, (i < n)%nat -> (act us i < K)%nat /\ 0 < pi i (act us i)).
  { intros us Hus i Hi. apply sampled_action; auto; try (intros; apply P0; auto). specialize (Hus i). lra. }
  assert (HE : forall us ws, unit_draws us -> unit_draws ws -> forall i, (i < n)%nat -> is_embedding C D (emb us ws i) /\ forall k, (k < D)%nat -> 0 < p (act us i) (nth k (emb us ws i) 0%nat) k).
  { intros us ws Hus Hws i Hi. destruct (HA us Hus i Hi) as [A1 _]. destruct (drawn_embedding K C D p (act us i) (fun k => ws (i * D + k)%nat) Hp A1) as [B1 B2]; [intros; apply Hws|].
    split; [exact B1|]. intros k Hk. unfold emb. rewrite nth_tab by auto. apply B2; auto. }
  split.
  - intros us ws vs Hus Hws Hvs. apply In_dprod. intros i Hi. cbv zeta. fold (act us i) (emb us ws i). destruct (HA us Hus i Hi) as [A1 A2]. destruct (HE us ws Hus Hws i Hi) as [B1 B2].
    specialize (Hm i (emb us ws i) Hi B1). set (r := if coin (vs i) (m i (emb us ws i)) then 1 else 0).
    assert (HR : exists q, In (r, q) (bernoulli (m i (emb us ws i))) /\ q <> 0).
    { rewrite bernoulli_in by auto. unfold r. specialize (Hposs (vs i) (m i (emb us ws i)) (Hvs i) Hm). destruct (coin _ _).
      - exists (m i (emb us ws i)). split; [left; reflexivity|lra].
      - exists (1 - m i (emb us ws i)). split; [right; left; reflexivity|lra]. }
    destruct HR as (q & Hq & Nq).
    assert (HEm : exists w, In (emb us ws i, w) (embed_dist D C p (act us i)) /\ w <> 0).
    { unfold emb, embed_dist. apply In_dprod. intros k Hk. destruct B1 as [_ B1]. specialize (B1 k Hk). specialize (B2 k Hk). unfold emb in B1, B2. rewrite nth_tab in B1, B2 by auto. eexists. split; [|apply Rgt_not_eq; exact B2].
      unfold dtab. apply In_tab. eexists. split; [exact B1|reflexivity]. }
    destruct HEm as (w & Hw & Nw). exists (pi i (act us i) * (w * q)). split; [|repeat apply Rmult_integral_contrapositive_currified; auto; lra].
    unfold full_round. apply (In_dbind _ _ (act us i) (pi i (act us i))); [unfold dtab; apply In_tab; exists (act us i); auto|].
    apply (In_dbind _ _ (emb us ws i) w); [exact Hw|]. unfold dmap. apply in_map_iff. exists (r, q). auto.
  - intros F.
    set (E2 := fun i a v => dmap (fun r => (i, a, v, r)) (bernoulli (m i v)) : dist (nat * nat * list nat * R)).
    set (E1 := fun i a => dbind (embed_dist D C p a) (E2 i a)).
    exists (fun us => expect (dprod n (fun i => E1 i (act us i))) F). split.
    + intros us Hus. exists (fun ws => expect (dprod n (fun i => E2 i (act us i) (emb us ws i))) F). split.
      * intros ws Hws. apply (mean_dprod n (fun i => E2 i (act us i) (emb us ws i)) (fun i v => (i, act us i, emb us ws i, if coin v (m i (emb us ws i)) then 1 else 0)) F).
        intros i gg Hi. destruct (HE us ws Hus Hws i Hi) as [B1 _]. specialize (Hm i _ Hi B1). unfold E2. rewrite expect_dmap, bernoulli_in by auto. cbn [expect fold_right fst snd]. rewrite Rplus_0_r.
        apply (coin_int coin (m i (emb us ws i)) (fun r => gg (i, act us i, emb us ws i, r))); auto.
      * unfold E1. rewrite (dprod_dbind n [] (fun i => embed_dist D C p (act us i)) (fun i => E2 i (act us i)) F).
        eapply mean_ext; [|apply (mean_blocks D n (fun i => embed_dist D C p (act us i)) (fun i ws => tab D (fun k => drawn_category C p (act us i) k (ws k)))
           (fun o => expect (dprod n (fun i => E2 i (act us i) (nth i o []))) F))].
        -- intros ws Hws. cbv beta. apply dprod_ext. intros i gg Hi. rewrite nth_tab by auto. reflexivity.
        -- intros i w1 w2 Hw. apply tab_ext. intros k Hk. rewrite Hw by auto. reflexivity.
        -- intros i gg Hi. apply (embedding_mean K); auto. apply HA; auto.
    + assert (EE : expect (dprod n (full_round K C D p pi m)) F = expect (dprod n (fun i => dtab K (pi i))) (fun o => expect (dprod n (fun i => E1 i (nth i o 0%nat))) F)).
      { rewrite <- (dprod_dbind n 0%nat (fun i => dtab K (pi i)) E1 F). reflexivity. }
      rewrite EE. eapply mean_ext; [|apply (mean_dprod n (fun i => dtab K (pi i)) (fun i u => sample_action_row (tab K (pi i)) u) (fun o => expect (dprod n (fun i => E1 i (nth i o 0%nat))) F))].
      * intros us Hus. cbn. apply dprod_ext. intros i gg Hi. rewrite nth_tab by auto. reflexivity.
      * intros i gg Hi. rewrite expect_dtab. rewrite (sumn_ext _ (fun a => gg a * pi i a) (fun a => pi i a * gg a)) by (intros; ring). apply sampler_mean; auto.
Qed.

(** ** What of the full log is observed *)

Lemma expect_dprod_skip {A} h : forall D (G : nat -> dist A) F, (forall k, (k < D)%nat -> is_dist (G k)) -> (h <= D)%nat ->
  expect (dprod D G) (fun v => F (skipn h v)) = expect (dprod (D - h) (fun k => G (h + k)%nat)) F.
Proof.
  induction h as [|h IH]; intros D G F Hd Hh.
  - rewrite Nat.sub_0_r. reflexivity.
  - destruct D as [|D]; [lia|]. rewrite dprod_front. cbn [skipn]. rewrite (expect_ext_all (G 0%nat) _ (fun _ => expect (dprod (D - h) (fun k => G (S h + k)%nat)) F)).
    + rewrite expect_const by (apply Hd; lia). cbn [Nat.sub]. reflexivity.
    + intros x. rewrite (IH D (fun k => G (S k)) F) by (try lia; intros; apply Hd; lia). apply dprod_ext. intros; reflexivity.
Qed.

Lemma expect_dprod_at {A} n (D : nat -> dist A) f (x0 : A) k : (forall i, (i < n)%nat -> is_dist (D i)) -> (k < n)%nat -> expect (dprod n D) (fun o => f (nth k o x0)) = expect (D k) f.
Proof.
  intros Hd Hk.
  assert (S1 : forall h : nat -> R, sumn n (fun i => if Nat.eqb i k then h i else 0) = h k).
  { intros h. clear - Hk. induction n as [|n IH]; [lia|]. cbn [sumn]. destruct (Nat.eqb_spec n k) as [->|Hne].
    - rewrite (sumn_ext _ _ (fun _ => 0)) by (intros j Hj; destruct (Nat.eqb_spec j k); [lia|reflexivity]). rewrite sumn_0. lra.
    - rewrite IH by lia. lra. }
  pose proof (expect_dprod_sumn n D (fun i x => if Nat.eqb i k then f x else 0) x0 Hd) as E.
  rewrite (expect_ext_all _ _ (fun o => f (nth k o x0))) in E by (intros o; apply (S1 (fun i => f (nth i o x0)))). rewrite E.
  rewrite (sumn_ext _ _ (fun i => if Nat.eqb i k then expect (D i) f else 0)); [apply (S1 (fun i => expect (D i) f))|].
  intros i Hi. destruct (Nat.eqb i k); [reflexivity|]. unfold expect. induction (D i) as [|[a w] l IH]; cbn; [reflexivity|]. rewrite IH. ring.
Qed.

Lemma dprod_fmap {A B} n (D : nat -> dist A) (f : A -> B) F : expect (dprod n D) (fun o => F (map f o)) = expect (dprod n (fun i => dmap f (D i))) F.
Proof.
  revert D F. induction n as [|n IH]; intros D F; [reflexivity|]. rewrite !dprod_front, expect_dmap. apply expect_ext_all. intros x. cbn [map]. apply (IH (fun i => D (S i)) (fun o => F (f x :: o))).
Qed.

(** Without the embeddings the log is that of a plain dataset with the reported expected rewards. *)
Lemma plain_round n K C D p pi pe m q i gg : (i < n)%nat -> category_dists K C D p -> (forall v, is_embedding C D v -> 0 <= m i v <= 1) ->
  (forall a, (a < K)%nat -> q i a = expect (embed_dist D C p a) (m i)) ->
  expect (full_round K C D p pi m i) (fun y => gg (fst (fst (fst y)), snd (fst (fst y)), snd y)) = expect (round_dist (fixed_rounds n K pi pe q) i) gg.
Proof.
  intros Hi Hp Hm Hq. unfold full_round, round_dist, fixed_rounds. cbn [ev_ctx ev_K ev_pb ev_rd ev_pos]. rewrite (expect_dbind [(i, 1)]). cbn [expect fold_right fst snd]. rewrite (clamp_round n i Hi), Rmult_1_r, Rplus_0_r.
  rewrite !expect_dbind, !expect_dtab. apply sumn_ext. intros a Ha. f_equal. rewrite expect_dbind, expect_dmap. rewrite (proj2 (Nat.ltb_lt a K) Ha). cbn [expect fold_right fst snd].
  rewrite (expect_ext (embed_dist D C p a) _ (fun v => m i v * (gg (i, a, 1) - gg (i, a, 0)) + gg (i, a, 0))).
  - rewrite expect_plus, expect_scal_r, <- Hq by auto. rewrite expect_const; [ring|]. apply is_dist_dprod. intros k Hk. apply is_dist_dtab; apply (Hp a k); auto.
  - intros v w Hv Hw. rewrite expect_dmap, bernoulli_in; [cbn; ring|]. apply Hm. destruct (L_Prob.In_dprod D _ v w Hv Hw) as [Hl Hv']. split; [exact Hl|].
    intros k Hk. destruct (Hv' k 0%nat Hk) as (w' & Hx & _). apply In_dtab in Hx. apply Hx.
Qed.

Lemma observed_round n K C D h p pi pe m mo i gg : (i < n)%nat -> (h <= D)%nat -> category_dists K C D p -> (forall v, is_embedding C D v -> m i v = mo i (skipn h v)) ->
  expect (full_round K C D p pi m i) (fun y => gg (fst (fst (fst y)), snd (fst (fst y)), skipn h (snd (fst y)), snd y)) = expect (e_round (embedding_process n K C D h p pi pe mo) i) gg.
Proof.
  intros Hi Hh Hp Hm. unfold full_round, e_round, embedding_process. cbn [en_ctx en_K en_pb en_rd en_pos en_emb]. rewrite (expect_dbind [(i, 1)]). cbn [expect fold_right fst snd]. rewrite (clamp_round n i Hi), Rmult_1_r, Rplus_0_r.
  rewrite !expect_dbind, !expect_dtab. apply sumn_ext. intros a Ha. f_equal. rewrite !expect_dbind.
  rewrite <- (expect_dprod_skip h D (fun k => dtab C (fun c => p a c k)) (fun v => expect (dmap (fun r => (i, a, v, r)) (bernoulli (mo i v))) gg)); auto.
  - apply expect_ext. intros v w Hv Hw. rewrite !expect_dmap. cbn [fst snd]. rewrite Hm; [reflexivity|]. destruct (L_Prob.In_dprod D _ v w Hv Hw) as [Hl Hv']. split; [exact Hl|].
    intros k Hk. destruct (Hv' k 0%nat Hk) as (w' & Hx & _). apply In_dtab in Hx. apply Hx.
  - intros k Hk. apply is_dist_dtab; apply (Hp a k); auto.
Qed.

(** Distributions with the same expectations have the same outcomes. *)
Lemma same_outcomes {A} (dec : forall x y : A, {x = y} + {x <> y}) (d1 d2 : dist A) x w : is_dist d1 -> (forall f, expect d1 f = expect d2 f) -> In (x, w) d1 -> w <> 0 -> exists w', In (x, w') d2 /\ w' <> 0.
Proof.
  intros [H1 _] E Hx Hw. set (f := fun y => if dec y x then 1 else 0).
  assert (P : 0 < expect d1 f).
  { assert (0 < w) by (destruct (Rle_lt_or_eq_dec 0 w (H1 x w Hx)); [auto|congruence]). clear E Hw. revert H1 Hx. induction d1 as [|[y v] d1 IH]; [intros _ []|]. intros H1 [Hx|Hx].
    - injection Hx as -> ->. change (expect ((x, w) :: d1) f) with (f x * w + expect d1 f). unfold f at 1. destruct (dec x x); [|congruence]. assert (0 <= expect d1 f); [|lra]. apply expect_nonneg; [eauto using in_cons|]. intros a q Ha. unfold f. destruct (dec a x); lra.
    - specialize (IH ltac:(intros; eapply H1; right; eauto) Hx). change (expect ((y, v) :: d1) f) with (f y * v + expect d1 f). assert (0 <= v) by (apply (H1 y); left; reflexivity). unfold f at 1. destruct (dec y x); lra. }
  rewrite E in P. clear E Hx. induction d2 as [|[y v] d2 IH]; [cbn in P; lra|]. change (expect ((y, v) :: d2) f) with (f y * v + expect d2 f) in P. unfold f in P at 1. destruct (dec y x) as [->|Hne].
  - destruct (Req_EM_T v 0) as [->|Hv]; [|exists v; split; [left; reflexivity|exact Hv]]. destruct IH as (w' & Hi & Hn); [lra|]. exists w'. split; [right; exact Hi|exact Hn].
  - destruct IH as (w' & Hi & Hn); [lra|]. exists w'. split; [right; exact Hi|exact Hn].
Qed.
Lemma full_round_dist K C D p pi m i : (forall a, (a < K)%nat -> 0 <= pi i a) -> sumn K (pi i) = 1 -> category_dists K C D p -> is_dist (full_round K C D p pi m i).
Proof.
  intros P0 P1 Hp. unfold full_round. apply is_dist_dbind; [apply is_dist_dtab; auto|]. intros a w Ha. apply In_dtab in Ha as [Ha _].
  apply is_dist_dbind; [apply is_dist_dprod; intros k Hk; apply is_dist_dtab; apply (Hp a k); auto|]. intros v w' _. apply is_dist_dmap, bernoulli_dist.
Qed.
Definition plain_part (y : nat * nat * list nat * R) : nat * nat * R := (fst (fst (fst y)), snd (fst (fst y)), snd y).
Definition seen_part (h : nat) (y : nat * nat * list nat * R) : nat * nat * list nat * R := (fst (fst (fst y)), snd (fst (fst y)), skipn h (snd (fst y)), snd y).
Definition dec3 : forall x y : list (nat * nat * R), {x = y} + {x <> y}.
Proof. repeat (decide equality || apply Req_EM_T || apply Nat.eq_dec). Defined.
Definition dec4 : forall x y : list (nat * nat * list nat * R), {x = y} + {x <> y}.
Proof. repeat (decide equality || apply Req_EM_T || apply Nat.eq_dec). Defined.

(** MIPW with the true category distributions, over the logs of any process. *)
Lemma mipw_mean {X} (e : eenv X) arg m argsort T : eenv_ok e -> (forall o, position_arg (as_log (elog_of e o)) arg) ->
  expects (e_logs e) (fun o => value_on false None m argsort T (elog_of e o) arg)
    (avg (en_n e) (fun i => expect (en_ctx e i) (fun x => expect (emb_under e (en_pb e x (en_pos e i))) (fun v =>
       prodn (en_D e) (fun k => pr_dim (emb_under e (en_pe e x (en_pos e i))) k (nth k v 0%nat) / pr_dim (emb_under e (en_pb e x (en_pos e i))) k (nth k v 0%nat))
       * expect (en_rd e x (en_pos e i) v) (fun r => r))))).
Proof.
  intros He Harg. exists (fun o => spec_mipw (elog_of e o)). split.
  { intros o p Ho Hp. apply value_ok; auto. eapply elog_accepted; eauto. }
  set (W := fun x s v => prodn (en_D e) (fun k => pr_dim (emb_under e (en_pe e x s)) k (nth k v 0%nat) / pr_dim (emb_under e (en_pb e x s)) k (nth k v 0%nat))).
  set (G := fun (i : nat) (y : option (X * nat * list nat * R)) => match y with Some (x, a, v, r) => W x (en_pos e i) v * r | None => 0 end).
  rewrite (expect_ext (e_logs e) _ (fun o => avg (en_n e) (fun i => G i (nth_error o i)))).
  2:{ intros o p Ho Hp. unfold spec_mipw. cbn [elog_of el_n]. apply avg_ext. intros i Hi.
      destruct (In_dprod_opt _ _ _ _ Ho Hp i Hi) as ([[[x a] v] r] & q & E & Hq & Hq0).
      unfold e_weight, marg. cbn [elog_of el_K el_pos el_pib el_pie el_pea el_emb el_D el_r]. rewrite E. unfold G, W. f_equal. apply L_Embed.prodn_ext.
      intros k Hk. rewrite (pr_dim_emb e (en_pe e x (en_pos e i))), (pr_dim_emb e (en_pb e x (en_pos e i))). reflexivity. }
  unfold e_logs. rewrite expect_dprod_avg_opt by (apply is_dist_eround; auto). apply avg_ext. intros i Hi. unfold G.
  rewrite (expect_eround e i (fun x v r => W x (en_pos e i) v * r)). apply expect_ext_all. intros x. apply expect_ext_all. intros v. rewrite expect_scal. reflexivity.
Qed.

Lemma embedding_process_ok n K C D h p pi pe m : (0 < n)%nat -> (h < D)%nat -> category_dists K C D p ->
  (forall i a, (i < n)%nat -> (a < K)%nat -> 0 <= pi i a) -> (forall i, (i < n)%nat -> sumn K (pi i) = 1) ->
  (forall i a, (i < n)%nat -> (a < K)%nat -> 0 <= pe i a) -> (forall i, (i < n)%nat -> sumn K (pe i) = 1) -> eenv_ok (embedding_process n K C D h p pi pe m).
Proof.
  intros Hn Hh Hp P0 P1 E0 E1. assert (Cl : forall x, (Nat.min x (n - 1) < n)%nat) by (intros; lia).
  unfold embedding_process. constructor; cbn [en_n en_D en_pos en_L en_ctx en_pb en_K en_pe en_emb en_C en_rd]; auto; try lia.
  - intros i _. split; [|cbn; lra]. intros x w [[= <- <-]|[]]. lra.
  - intros a Ha. apply is_dist_dprod. intros k Hk. apply is_dist_dtab; apply (Hp a (h + k)%nat); auto; lia.
  - intros a v w Ha Hv. clear - Hv. revert w v Hv. generalize (D - h)%nat as N. intros N.
    assert (G : forall (P : nat -> dist nat), (forall k x w, In (x, w) (P k) -> (x < C)%nat) -> forall v w, In (v, w) (dprod N P) -> length v = N /\ forall d, (d < N)%nat -> (nth d v 0 < C)%nat).
    { intros P HP. induction N as [|N IH]; intros v w Hv.
      - destruct Hv as [[= <- <-]|[]]. split; [reflexivity|intros; lia].
      - cbn [dprod] in Hv. apply L_Prob.In_dbind in Hv as (l & w1 & w2 & Hl & Hv & _). apply In_dmap in Hv as (x & E & Hx). destruct (IH _ _ Hl) as [H1 H2]. subst v. split.
        + rewrite app_length. cbn. lia.
        + intros d Hd. destruct (Nat.eq_dec d N) as [->|Hne].
          * rewrite app_nth2 by lia. rewrite H1, Nat.sub_diag. cbn. eapply HP; eauto.
          * rewrite app_nth1 by lia. apply H2. lia. }
    intros w v Hv. eapply G; [|exact Hv]. intros k x w' Hx. cbv beta in Hx. apply In_dtab in Hx. apply Hx.
  - intros. apply bernoulli_dist.
Qed.

Lemma pr_dim_category n K C D h p pi pe m a k c : (forall k, (k < D)%nat -> (forall c, (c < C)%nat -> 0 <= p a c k) /\ sumn C (fun c => p a c k) = 1) -> (k < D - h)%nat -> (c < C)%nat ->
  pr_dim (en_emb (embedding_process n K C D h p pi pe m) a) k c = p a c (h + k)%nat.
Proof.
  intros Hp Hk Hc. unfold pr_dim, embedding_process. cbn [en_emb].
  rewrite (expect_dprod_at (D - h) (fun k => dtab C (fun c => p a c (h + k)%nat)) (fun u => if Nat.eqb u c then 1 else 0) 0%nat k); auto.
  - rewrite expect_dtab. rewrite (sumn_term _ _ c); auto; [rewrite Nat.eqb_refl; ring|]. intros j Hj Hne. destruct (Nat.eqb_spec j c); [congruence|ring].
  - intros i Hi. apply is_dist_dtab; apply (Hp (h + i)%nat); lia.
Qed.

(** ** C157 *)

(** The dataset draws its actions with its own seed and dimension k of the embeddings with seed k: a stream each. *)
Definition streams (seed D : nat) (us ws : nat -> R) (s i : nat) : R := if Nat.eqb s seed then us i else ws (i * D + s)%nat.
(** The mean reward as a function of the observed dimensions. *)
Definition observed_mean (D h : nat) (w : nat -> R) (qe : nat -> nat -> nat -> R) (i : nat) (v : list nat) : R :=
  sumn (D - h) (fun j => w (h + j)%nat * qe i (nth j v 0%nat) (h + j)%nat).

Lemma nth_skipn {A} h : forall (v : list A) j x, nth j (skipn h v) x = nth (h + j) v x.
Proof. induction h as [|h IH]; intros [|y v] j x; cbn [skipn Nat.add nth]; auto. destruct j; reflexivity. Qed.
Lemma observed_mean_ok D h irr di qe i v : (h <= irr)%nat -> (h <= D)%nat ->
  embed_mean D (P_DataEmbed.weight irr di) qe i (fun k => nth k v 0%nat) = observed_mean D h (P_DataEmbed.weight irr di) qe i (skipn h v).
Proof.
  intros H1 H2. unfold embed_mean, observed_mean. replace D with (h + (D - h))%nat at 1 by lia. rewrite sumn_app. rewrite (sumn_zero h).
  - rewrite Rplus_0_l. apply sumn_ext. intros j Hj. rewrite nth_skipn. reflexivity.
  - intros k Hk. unfold P_DataEmbed.weight. destruct (le_lt_dec irr k); [lia|ring].
Qed.

Theorem C157_draws : forall argsort coin d c di qe p n context g lg normal,
  sorts argsort -> fair_coin coin -> possible_coin coin -> (ds_deficient d < ds_K d)%nat -> (0 < n)%nat ->
  let K := ds_K d in let C := ec_cat c in let D := ec_dim c in let h := ec_hidden c in
  category_dists K C D p -> (D <= ds_seed d)%nat ->
  let w := P_DataEmbed.weight (ec_irrelevant c) di in
  let mean i v := embed_mean D w qe i (fun k => nth k v 0%nat) in
  let q i a := expect (embed_dist D C p a) (mean i) in
  logit_table d context n q lg -> ds_binary d = true -> (forall i v, (i < n)%nat -> is_embedding C D v -> 0 <= mean i v <= 1) ->
  let generate us ws vs := embed_batch (streams (ds_seed d) D us ws) argsort d c di qe p (Z.of_nat n) context (tabR2 n K g) (fun i p => coin (vs i) p) normal in
  exists pi S,
    (forall i, (i < n)%nat -> selected K (K - ds_deficient d) (g i) (S i) /\ softmax_on K (S i) (ds_beta d) (lg i) (pi i) /\ (forall a, (a < K)%nat -> 0 <= pi i a) /\ sumn K (pi i) = 1) /\
    forall pe, (forall i a, (i < n)%nat -> (a < K)%nat -> 0 <= pe i a) -> (forall i, (i < n)%nat -> sumn K (pe i) = 1) ->
    let dist := tab3F n K 1 (fun i a _ => pe i a) in
    let value := avg n (fun i => sumn K (fun a => pe i a * q i a)) in
    (** the value the dataset reports *)
    (forall us ws vs, unit_draws us -> unit_draws ws -> unit_draws vs -> exists b, generate us ws vs = Ok b /\ ground_truth (map (map Fin) (b_expected (eb_batch b))) dist = Ok (Fin value)) /\
    (** the log without the embeddings, IPW and DR *)
    (forall F, uniform_mean3 n D (fun us ws vs => match generate us ws vs with Ok b => F (logged_rounds (eb_batch b)) | Err _ => 0 end) (expect (log_dist (fixed_rounds n K pi pe q)) F)) /\
    ((forall i a, (i < n)%nat -> (a < K)%nat -> 0 < pe i a -> 0 < pi i a) ->
      estimates3 n D generate (fun b => ipw_value PInf false (map Fin (b_reward (eb_batch b))) (map Z.of_nat (b_action (eb_batch b))) dist (Some (map Fin (b_pscore (eb_batch b)))) None None) value /\
      forall qh, estimates3 n D generate (fun b => dr_value PInf false (map Fin (b_reward (eb_batch b))) (map Z.of_nat (b_action (eb_batch b))) dist (tab3F n K 1 (fun i a _ => qh i a)) (Some (map Fin (b_pscore (eb_batch b)))) None None) value) /\
    (** the log with the observed embeddings, and MIPW with the reported category distributions *)
    ((h <= ec_irrelevant c)%nat -> (h < D)%nat ->
      let m := observed_mean D h w qe in
      (forall F, uniform_mean3 n D (fun us ws vs => match generate us ws vs with Ok b => F (embedded_rounds b) | Err _ => 0 end) (expect (e_logs (embedding_process n K C D h p pi pe m)) F)) /\
      forall m_emb sort T,
      let mipw b := mipw_value false None m_emb sort (Fin T) K (fun _ => []) (map Fin (b_reward (eb_batch b))) (map Z.of_nat (b_action (eb_batch b))) (map (map Z.of_nat) (eb_embed b))
                      (map (map (map Fin)) (b_pi (eb_batch b))) dist None (Some (map (map (map Fin)) (eb_pea b))) false in
      let category (policy : nat -> R) k x := sumn K (fun a => policy a * p a x (h + k)%nat) in
      estimates3 n D generate mipw
        (avg n (fun i => sumn K (fun a => pi i a * expect (dprod (D - h) (fun k => dtab C (fun x => p a x (h + k)%nat))) (fun v =>
           prodn (D - h) (fun k => category (pe i) k (nth k v 0%nat) / category (pi i) k (nth k v 0%nat)) * m i v)))) /\
      (D = Datatypes.S h -> (forall i x, (i < n)%nat -> (x < C)%nat -> 0 < category (pe i) 0%nat x -> 0 < category (pi i) 0%nat x) -> estimates3 n D generate mipw value)).
Proof.
  intros argsort coin d c di qe p n context g lg normal Hs Hcoin Hposs Hd Hn K C D h Hp Hseed w mean q Hlg Hb Hm generate.
  destruct (embed_of_draws argsort d c di qe p n context g lg Hs Hd Hn Hp Hlg Hb Hm) as (pi & P0 & P1 & (S & HS) & HB).
  fold K in P0, P1, HS, HB. exists pi, S. split.
  { intros i Hi. destruct (HS i Hi) as [S1 S2]. split; [exact S1|]. split; [exact S2|]. split; [intros; apply P0; auto|auto]. }
  intros pe E0 E1 dist value.
  destruct (full_law n K C D coin p pi mean Hcoin Hposs P0 P1 Hp Hm) as [HI HU].
  set (act := fun (us : nat -> R) i => sample_action_row (tab K (pi i)) (us i)).
  set (emb := fun (us ws : nat -> R) i => tab D (fun k => drawn_category C p (act us i) k (ws (i * D + k)%nat))).
  set (full := full_log n K C D coin p pi mean).
  assert (Nth : forall us ws vs i, (i < n)%nat -> nth_error (full us ws vs) i = Some (i, act us i, emb us ws i, if coin (vs i) (mean i (emb us ws i)) then 1 else 0)).
  { intros us ws vs i Hi. unfold full, full_log. rewrite nth_error_tab by auto. reflexivity. }
  (* the batch *)
  assert (HG : forall us ws vs, unit_draws us -> unit_draws ws -> exists b, generate us ws vs = Ok b /\
     b_expected (eb_batch b) = tabR2 n K q /\ b_reward (eb_batch b) = tab n (fun i => if coin (vs i) (mean i (emb us ws i)) then 1 else 0) /\ b_action (eb_batch b) = tab n (act us) /\
     b_pscore (eb_batch b) = tab n (fun i => pi i (act us i)) /\ b_pi (eb_batch b) = tab n (fun i => tab K (fun a => [pi i a])) /\
     eb_embed b = tab n (fun i => skipn h (emb us ws i)) /\ eb_pea b = tab K (fun a => tab C (fun x => tab (D - h) (fun j => p a x (h + j)%nat))) /\
     logged_rounds (eb_batch b) = map plain_part (full us ws vs) /\ embedded_rounds b = map (seen_part h) (full us ws vs)).
  { intros us ws vs Hus Hws. unfold generate. specialize (HB (streams (ds_seed d) D us ws) (fun i p => coin (vs i) p) normal).
    assert (Hstr : forall s i, 0 <= streams (ds_seed d) D us ws s i < 1) by (intros s i; unfold streams; destruct (Nat.eqb s (ds_seed d)); [specialize (Hus i)|specialize (Hws (i * D + s)%nat)]; lra).
    specialize (HB Hstr). cbv zeta in HB.
    assert (Ea : forall i, sample_action_row (tab K (pi i)) (streams (ds_seed d) D us ws (ds_seed d) i) = act us i) by (intros i; unfold streams; rewrite Nat.eqb_refl; reflexivity).
    assert (Ee : forall i, tab (ec_dim c) (fun k => drawn_category (ec_cat c) p (sample_action_row (tab K (pi i)) (streams (ds_seed d) D us ws (ds_seed d) i)) k (streams (ds_seed d) D us ws k i)) = emb us ws i).
    { intros i. apply tab_ext. intros k Hk. rewrite Ea. unfold streams. destruct (Nat.eqb_spec k (ds_seed d)) as [->|_]; [unfold D in Hseed; lia|reflexivity]. }
    eexists. split; [exact HB|]. cbn [eb_batch b_expected b_reward b_action b_pscore b_pi eb_embed eb_pea].
    split; [reflexivity|]. split; [apply tab_ext; intros i Hi; rewrite Ee; reflexivity|]. split; [apply tab_ext; intros i Hi; apply Ea|].
    split; [apply tab_ext; intros i Hi; rewrite Ea; reflexivity|]. split; [reflexivity|]. split; [apply tab_ext; intros i Hi; rewrite Ee; reflexivity|]. split; [reflexivity|].
    unfold logged_rounds, embedded_rounds, full, full_log. cbn [eb_batch b_n b_action b_reward eb_embed]. rewrite !map_tab.
    split; apply tab_ext; intros i Hi; rewrite !nth_tab by auto; rewrite Ee, Ea; reflexivity. }
  (* laws of the two views *)
  assert (FD : is_dist (dprod n (full_round K C D p pi mean))) by (apply is_dist_dprod; intros i Hi; apply full_round_dist; auto).
  set (e := fixed_rounds n K pi pe q).
  assert (Q01 : forall i a, (i < n)%nat -> (a < K)%nat -> 0 <= q i a <= 1).
  { intros i a Hi Ha.
    assert (Da : is_dist (embed_dist D C p a)) by (apply is_dist_dprod; intros k Hk; apply is_dist_dtab; apply (Hp a k); auto).
    assert (B : forall v w', In (v, w') (embed_dist D C p a) -> w' <> 0 -> 0 <= mean i v <= 1).
    { intros v w' Hv Hw. apply Hm; auto. destruct (L_Prob.In_dprod D _ v w' Hv Hw) as [Hl Hv']. split; [exact Hl|]. intros k Hk. destruct (Hv' k 0%nat Hk) as (w2 & Hx & _). apply In_dtab in Hx. apply Hx. }
    unfold q. rewrite (expect_ext _ (mean i) (fun v => Rmax 0 (Rmin 1 (mean i v)))) by (intros v w' Hv Hw; specialize (B v w' Hv Hw); rewrite Rmin_right by lra; rewrite Rmax_right by lra; reflexivity).
    assert (R1 : forall x, 0 <= Rmax 0 (Rmin 1 x) <= 1) by (intros x; split; [apply Rmax_l|apply Rmax_lub; [lra|apply Rmin_l]]).
    split; [apply expect_nonneg; [apply Da|intros; apply R1]|]. apply Rle_trans with (expect (embed_dist D C p a) (fun _ => 1)); [apply expect_le; [apply Da|]; intros; apply R1|]. rewrite (expect_const (embed_dist D C p a) 1 Da). lra. }
  assert (He : env_ok e) by (apply fixed_rounds_ok; auto).
  assert (L1 : forall F, expect (dprod n (full_round K C D p pi mean)) (fun o => F (map plain_part o)) = expect (log_dist e) F).
  { intros F. rewrite dprod_fmap. unfold log_dist. apply dprod_ext. intros i gg Hi. rewrite expect_dmap. apply (plain_round n K C D p pi pe mean q i gg); auto. }
  assert (PL : forall us ws vs, unit_draws us -> unit_draws ws -> unit_draws vs -> exists w', In (map plain_part (full us ws vs), w') (log_dist e) /\ w' <> 0).
  { intros us ws vs Hus Hws Hvs. destruct (HI us ws vs Hus Hws Hvs) as (w0 & H0 & N0). apply (same_outcomes dec3 (dmap (map plain_part) (dprod n (full_round K C D p pi mean))) (log_dist e) _ w0).
    - apply is_dist_dmap; auto.
    - intros f. rewrite expect_dmap. apply L1.
    - unfold dmap. apply in_map_iff. exists (full us ws vs, w0). auto.
    - exact N0. }
  assert (U1 : forall F, uniform_mean3 n D (fun us ws vs => F (map plain_part (full us ws vs))) (expect (log_dist e) F)).
  { intros F. rewrite <- L1. apply (HU (fun o => F (map plain_part o))). }
  split; [|split; [|split]].
  - intros us ws vs Hus Hws Hvs. destruct (HG us ws vs Hus Hws) as (b & Eb & Ex & _). exists b. split; [exact Eb|].
    destruct (C59_policy_value n K 1 q (fun i a _ => pe i a) 0 1 Hn ltac:(lia) E0 E1 Q01) as (v & Ev & Vv & _).
    unfold value. rewrite <- Vv, <- Ev. f_equal. rewrite Ex. unfold tabR2, tab2F, tabF. rewrite map_tab. apply tab_ext. intros i Hi. rewrite map_tab. reflexivity.
  - intros F. destruct (U1 F) as (G & HGG & HM'). exists G. split; auto. intros us Hus. destruct (HGG us Hus) as (H & HH & HM2). exists H. split; auto. intros ws Hws. eapply mean_ext; [|apply (HH ws Hws)].
    intros vs Hvs. cbv beta. destruct (HG us ws vs Hus Hws) as (b & Eb & _ & _ & _ & _ & _ & _ & _ & Er & _). rewrite Eb, Er. reflexivity.
  - intros Hsup.
    assert (VV : forall qh : nat -> nat -> R, avg n (fun i => sumn K (fun a => pe i a * (qh i a + pi i a / pi i a * (q i a - qh i a)))) = value).
    { intros qh. apply avg_ext. intros i Hi. apply sumn_ext. intros a Ha. destruct (Req_dec (pe i a) 0) as [->|Np]; [ring|].
      assert (0 < pi i a) by (apply Hsup; auto; specialize (E0 i a Hi Ha); lra). field. lra. }
    set (table := fun (x s a : nat) => pi (Nat.min x (n - 1)) a).
    assert (Hu : usable e table) by (intros x s a Ha; unfold table, e, fixed_rounds; cbn [ev_pb]; auto).
    assert (HV : forall us ws vs (qh : nat -> nat -> R), let l := log_of e table (fun x a _ => qh x a) (map plain_part (full us ws vs)) in
       rewards l = map Fin (tab n (fun i => if coin (vs i) (mean i (emb us ws i)) then 1 else 0)) /\ actions l = map Z.of_nat (tab n (act us)) /\
       pscores l = map Fin (tab n (fun i => pi i (act us i))) /\ policy l = dist /\ model l = tab3F n K 1 (fun i a _ => qh i a)).
    { intros us ws vs qh l.
      assert (Nt : forall i, (i < n)%nat -> nth_error (map plain_part (full us ws vs)) i = Some (i, act us i, if coin (vs i) (mean i (emb us ws i)) then 1 else 0)).
      { intros i Hi. rewrite nth_error_map, Nth by auto. reflexivity. }
      unfold rewards, actions, pscores, policy, model, l, log_of, e, fixed_rounds, dist, table, tabF, tabZ, tab3F. cbn [lg_n lg_r lg_a lg_p lg_K lg_L lg_pi lg_q ev_n ev_K ev_L ev_pos ev_pb ev_pe].
      rewrite !map_tab. split; [|split; [|split; [|split]]]; apply tab_ext; intros i Hi; rewrite (Nt i Hi), ?(clamp_round n i Hi); reflexivity. }
    assert (TR : forall (f : list (nat * nat * R) -> res num) est x, expects (log_dist e) f x ->
       (forall us ws vs, unit_draws us -> unit_draws ws -> unit_draws vs -> exists b, generate us ws vs = Ok b /\ est b = f (map plain_part (full us ws vs))) -> estimates3 n D generate est x).
    { intros f est x (gf & Hg & Hx) Hest. exists (fun us ws vs => gf (map plain_part (full us ws vs))). split.
      - intros us ws vs Hus Hws Hvs. destruct (Hest us ws vs Hus Hws Hvs) as (b & Eb & Ee). exists b. split; [exact Eb|]. rewrite Ee. destruct (PL us ws vs Hus Hws Hvs) as (p0 & Hp0 & Np). eapply Hg; eauto.
      - rewrite <- Hx. apply U1. }
    assert (PA : forall pt qh o, position_arg (log_of e pt qh o) None) by (intros; right; split; [reflexivity|]; split; [reflexivity|intros; reflexivity]).
    assert (PS : forall pt qh o, pscore_arg (log_of e pt qh o) false (Some (pscores (log_of e pt qh o))) None) by reflexivity.
    split.
    + eapply (TR (fun o => ipw_value PInf false (rewards (log_of e table (fun _ _ _ => 0) o)) (actions (log_of e table (fun _ _ _ => 0) o)) (policy (log_of e table (fun _ _ _ => 0) o)) (Some (pscores (log_of e table (fun _ _ _ => 0) o))) None None)).
      * destruct (C151_ipw_bias nat e table (fun _ _ _ => 0) false (fun o => Some (pscores (log_of e table (fun _ _ _ => 0) o))) (fun _ => None) None He Hu) as (gf & Hg & Hx); auto.
        exists gf. split; [exact Hg|]. rewrite Hx. pose proof (fixed_rounds_errors n K pi pe q pi (fun _ _ => 0) Hn ltac:(auto)) as [_ FE]. cbv zeta in FE. unfold e, table. rewrite FE.
        rewrite <- (VV (fun _ _ => 0)). apply avg_ext; intros; apply sumn_ext; intros; f_equal; ring.
      * intros us ws vs Hus Hws Hvs. destruct (HG us ws vs Hus Hws) as (b & Eb & _ & B1 & B2 & B3 & _). exists b. split; [exact Eb|].
        destruct (HV us ws vs (fun _ _ => 0)) as (V1 & V2 & V3 & V4 & _). cbv zeta in V1, V2, V3, V4. cbv beta. rewrite V1, V2, V3, V4, B1, B2, B3. reflexivity.
    + intros qh. eapply (TR (fun o => dr_value PInf false (rewards (log_of e table (fun x a _ => qh x a) o)) (actions (log_of e table (fun x a _ => qh x a) o)) (policy (log_of e table (fun x a _ => qh x a) o)) (model (log_of e table (fun x a _ => qh x a) o)) (Some (pscores (log_of e table (fun x a _ => qh x a) o))) None None)).
      * destruct (C151_dr_bias nat e table (fun x a _ => qh x a) false (fun o => Some (pscores (log_of e table (fun x a _ => qh x a) o))) (fun _ => None) None He Hu) as (gf & Hg & Hx); auto.
        exists gf. split; [exact Hg|]. rewrite Hx. pose proof (fixed_rounds_errors n K pi pe q pi qh Hn ltac:(auto)) as [FE _]. cbv zeta in FE. unfold e, table. rewrite FE. apply VV.
      * intros us ws vs Hus Hws Hvs. destruct (HG us ws vs Hus Hws) as (b & Eb & _ & B1 & B2 & B3 & _). exists b. split; [exact Eb|].
        destruct (HV us ws vs qh) as (V1 & V2 & V3 & V4 & V5). cbv zeta in V1, V2, V3, V4, V5. cbv beta. rewrite V1, V2, V3, V4, V5, B1, B2, B3. reflexivity.
  - intros Hirr Hh m. set (x := embedding_process n K C D h p pi pe m).
    assert (Hx : eenv_ok x) by (apply embedding_process_ok; auto).
    assert (MM : forall i v, mean i v = m i (skipn h v)) by (intros i v; unfold mean, m; apply observed_mean_ok; [exact Hirr|lia]).
    assert (L2 : forall F, expect (dprod n (full_round K C D p pi mean)) (fun o => F (map (seen_part h) o)) = expect (e_logs x) F).
    { intros F. rewrite dprod_fmap. unfold e_logs. cbn [x embedding_process en_n]. apply dprod_ext. intros i gg Hi. rewrite expect_dmap. apply (observed_round n K C D h p pi pe mean m i gg); auto. lia. }
    assert (PL2 : forall us ws vs, unit_draws us -> unit_draws ws -> unit_draws vs -> exists w', In (map (seen_part h) (full us ws vs), w') (e_logs x) /\ w' <> 0).
    { intros us ws vs Hus Hws Hvs. destruct (HI us ws vs Hus Hws Hvs) as (w0 & H0 & N0). apply (same_outcomes dec4 (dmap (map (seen_part h)) (dprod n (full_round K C D p pi mean))) (e_logs x) _ w0).
      - apply is_dist_dmap; auto.
      - intros f. rewrite expect_dmap. apply L2.
      - unfold dmap. apply in_map_iff. exists (full us ws vs, w0). auto.
      - exact N0. }
    assert (U2 : forall F, uniform_mean3 n D (fun us ws vs => F (map (seen_part h) (full us ws vs))) (expect (e_logs x) F)).
    { intros F. rewrite <- L2. apply (HU (fun o => F (map (seen_part h) o))). }
    split.
    + intros F. destruct (U2 F) as (G & HGG & HM'). exists G. split; auto. intros us Hus. destruct (HGG us Hus) as (H & HH & HM2). exists H. split; auto. intros ws Hws. eapply mean_ext; [|apply (HH ws Hws)].
      intros vs Hvs. cbv beta. destruct (HG us ws vs Hus Hws) as (b & Eb & _ & _ & _ & _ & _ & _ & _ & _ & Er). rewrite Eb, Er. reflexivity.
    + intros m_emb sort T mipw category.
      assert (MW : estimates3 n D generate mipw
        (avg n (fun i => sumn K (fun a => pi i a * expect (dprod (D - h) (fun k => dtab C (fun x => p a x (h + k)%nat))) (fun v =>
           prodn (D - h) (fun k => category (pe i) k (nth k v 0%nat) / category (pi i) k (nth k v 0%nat)) * m i v))))).
      { destruct (mipw_mean x None m_emb sort T Hx) as (gf & Hg & Hv).
        { intros o. right. split; [reflexivity|]. split; [reflexivity|intros; reflexivity]. }
        exists (fun us ws vs => gf (map (seen_part h) (full us ws vs))). split.
        - intros us ws vs Hus Hws Hvs. destruct (HG us ws vs Hus Hws) as (b & Eb & _ & B1 & B2 & _ & B3 & B4 & B5 & _). exists b. split; [exact Eb|].
          destruct (PL2 us ws vs Hus Hws Hvs) as (p0 & Hp0 & Np). rewrite <- (Hg _ _ Hp0 Np). unfold mipw, value_on. rewrite B1, B2, B3, B4, B5.
          assert (Nt : forall i, (i < n)%nat -> nth_error (map (seen_part h) (full us ws vs)) i = Some (i, act us i, skipn h (emb us ws i), if coin (vs i) (mean i (emb us ws i)) then 1 else 0)).
          { intros i Hi. rewrite nth_error_map, Nth by auto. reflexivity. }
          unfold e_rewards, e_actions, e_embeds, e_pib, e_pie, e_pea, tabF, tabZ, tab3F. unfold elog_of. cbn [x embedding_process el_n el_K el_L el_C el_D el_r el_a el_emb el_pib el_pie el_pea en_n en_K en_L en_C en_D en_pb en_pe].
          f_equal.
          + rewrite map_tab. apply tab_ext. intros i Hi. rewrite Nt by auto. reflexivity.
          + rewrite map_tab. apply tab_ext. intros i Hi. rewrite Nt by auto. reflexivity.
          + rewrite map_tab. apply tab_ext. intros i Hi. rewrite Nt by auto. unfold emb. rewrite skipn_tab, map_tab. apply tab_ext. intros k Hk. rewrite nth_tab by auto. reflexivity.
          + rewrite map_tab. apply tab_ext. intros i Hi. rewrite map_tab. apply tab_ext. intros a Ha. rewrite Nt by auto. rewrite clamp_round by auto. reflexivity.
          + apply tab_ext. intros i Hi. apply tab_ext. intros a Ha. rewrite Nt by auto. rewrite clamp_round by auto. reflexivity.
          + f_equal. rewrite map_tab. apply tab_ext. intros a Ha. rewrite map_tab. apply tab_ext. intros y Hy. rewrite map_tab. apply tab_ext. intros k Hk. f_equal. symmetry. apply pr_dim_category; auto.
        - eapply eq_ind; [apply U2|]. rewrite Hv. unfold x at 1. cbn [embedding_process en_n]. apply avg_ext. intros i Hi. unfold x at 1. cbn [embedding_process en_ctx expect fold_right fst snd]. rewrite Rmult_1_r, Rplus_0_r.
          assert (PD : forall (policy : nat -> R) k y, (k < D - h)%nat -> (y < C)%nat -> pr_dim (emb_under x policy) k y = category policy k y).
          { intros policy k y Hk Hy. rewrite <- pr_dim_emb. unfold category. cbn [x embedding_process en_K]. apply sumn_ext. intros a Ha. f_equal. apply pr_dim_category; auto. }
          unfold emb_under at 1. rewrite expect_dbind, expect_dtab. cbn [x embedding_process en_K en_pb en_pos en_D]. fold x. apply sumn_ext. intros a Ha. rewrite clamp_round by auto. rewrite Rmult_comm. f_equal.
          cbn [x embedding_process en_emb]. fold x. apply expect_ext. intros v w0 Hv0 Hw0.
          destruct (L_Prob.In_dprod (D - h) _ v w0 Hv0 Hw0) as [Hl Hv'].
          assert (Hvc : forall k, (k < D - h)%nat -> (nth k v 0 < C)%nat) by (intros k Hk; destruct (Hv' k 0%nat Hk) as (w2 & Hx2 & _); apply In_dtab in Hx2; apply Hx2).
          f_equal.
          + apply L_Embed.prodn_ext. intros k Hk. cbn [x embedding_process en_pe en_pb]. fold x. rewrite !PD by auto. rewrite clamp_round by auto. reflexivity.
          + cbn [x embedding_process en_rd]. rewrite clamp_round by auto.
            assert (B : 0 <= m i v <= 1).
            { replace (m i v) with (mean i (repeat 0%nat h ++ v)).
              - destruct C as [|C'] eqn:EC; [specialize (Hvc 0%nat ltac:(lia)); lia|]. apply Hm; auto. split; [rewrite app_length, repeat_length; lia|]. intros k Hk. destruct (lt_dec k h).
                + rewrite app_nth1 by (rewrite repeat_length; lia). rewrite nth_repeat. lia.
                + rewrite app_nth2 by (rewrite repeat_length; lia). rewrite repeat_length. apply Hvc. lia.
              - rewrite MM. f_equal. rewrite skipn_app, repeat_length, Nat.sub_diag. cbn. rewrite skipn_all2 by (rewrite repeat_length; lia). reflexivity. }
            rewrite bernoulli_in by auto. cbn. ring. }
      split; [exact MW|]. intros HD Hsup. eapply eq_ind; [exact MW|]. unfold value. apply avg_ext. intros i Hi.
      assert (DH : (D - h = 1)%nat) by lia. rewrite DH.
      rewrite (sumn_ext K _ (fun a => sumn C (fun y => pi i a * (p a y (h + 0)%nat * (category (pe i) 0%nat y / category (pi i) 0%nat y * m i [y]))))).
      2:{ intros a Ha. rewrite sumn_scal. f_equal. rewrite dprod_front, expect_dtab. apply sumn_ext. intros y Hy. cbn. ring. }
      rewrite sumn_swap.
      rewrite (sumn_ext K (fun a => pe i a * q i a) (fun a => sumn C (fun y => pe i a * (p a y (h + 0)%nat * m i [y])))).
      2:{ intros a Ha. rewrite sumn_scal. f_equal. unfold q. rewrite (expect_ext_all _ (mean i) (fun v => m i (skipn h v))) by (intros v; apply MM).
          unfold embed_dist. rewrite (expect_dprod_skip h D (fun k => dtab C (fun c0 => p a c0 k)) (m i)); [|intros k Hk; apply is_dist_dtab; apply (Hp a k); auto|lia].
          rewrite DH, dprod_front, expect_dtab. apply sumn_ext. intros y Hy. cbn. ring. }
      rewrite (sumn_swap K C). apply sumn_ext. intros y Hy.
      rewrite (sumn_ext K _ (fun a => (category (pe i) 0%nat y / category (pi i) 0%nat y * m i [y]) * (pi i a * p a y (h + 0)%nat))) by (intros; ring). rewrite sumn_scal.
      rewrite (sumn_ext K (fun a => pe i a * _) (fun a => m i [y] * (pe i a * p a y (h + 0)%nat))) by (intros; ring). rewrite sumn_scal.
      fold (category (pi i) 0%nat y) (category (pe i) 0%nat y).
      assert (N : 0 <= category (pe i) 0%nat y) by (apply sumn_nonneg; intros a Ha; apply Rmult_le_pos; [apply E0; auto|apply (Hp a (h + 0)%nat); auto; lia]).
      destruct (Rle_lt_or_eq_dec _ _ N) as [Hpos|<-]; [|unfold Rdiv; ring]. specialize (Hsup i y Hi Hy Hpos). field. lra.
Qed.

(** With two or more observed dimensions MIPW need not average to the value although the dataset's own category distributions are used: the weight multiplies
    per-dimension ratios, and under a policy the dimensions are not independent. Two actions, two categories, two observed dimensions, one round, a uniform
    behaviour policy: action a has category a with probability 3/4 in every dimension and the reward averages the dimensions showing category 0. *)
Definition ex_dims : synth := mkSynth 2 1 true None [] 1 0 0 None 7 (10 ^ 10).
Definition ex_dims_p (a c k : nat) : R := if Nat.eqb c a then 3 / 4 else 1 / 4.
Definition ex_dims_qe (i c k : nat) : R := if Nat.eqb c 0 then 1 else 0.

Lemma ex_dims_hyps : category_dists 2 2 3 ex_dims_p /\
  let mean i v := embed_mean 3 (P_DataEmbed.weight 1 (fun _ => 1 / 2)) ex_dims_qe i (fun k => nth k v 0%nat) in
  logit_table ex_dims [[0]] 1 (fun i a => expect (embed_dist 3 2 ex_dims_p a) (mean i)) (fun i a => expect (embed_dist 3 2 ex_dims_p a) (mean i)) /\
  (forall i v, (i < 1)%nat -> is_embedding 2 3 v -> 0 <= mean i v <= 1).
Proof.
  split; [|split].
  - intros a k Ha Hk. unfold ex_dims_p. split.
    + intros c Hc. destruct (Nat.eqb c a); lra.
    + destruct a as [|[|a]]; [| |lia]; cbn; lra.
  - intros i a _ _. reflexivity.
  - intros i v Hi [Hl Hv]. apply (C66_mean_range 3 1 (fun _ => 1 / 2) ex_dims_qe i (fun k => nth k v 0%nat) 0 1); [lia|intros; lra|cbn; lra|]. intros k Hk. unfold ex_dims_qe. destruct (Nat.eqb _ 0); lra.
Qed.

Theorem C157_biased : forall normal m_emb sort T,
  let pe (i a : nat) := if Nat.eqb a 0 then 1 else 0 in
  let dist := tab3F 1 2 1 (fun i a _ => pe i a) in
  let generate us ws vs := embed_batch (streams 7 3 us ws) insertion_argsort ex_dims (mkEc 2 3 1 1) (fun _ => 1 / 2) ex_dims_qe ex_dims_p 1 [[0]] (tabR2 1 2 (fun _ _ => 0)) (fun i p => Rltb (vs i) p) normal in
  embed_init 2 5 2 0 0 (Fin 1) = Ok (mkEc 2 3 1 1) /\
  (forall us ws vs, unit_draws us -> unit_draws ws -> unit_draws vs -> exists b, generate us ws vs = Ok b /\ ground_truth (map (map Fin) (b_expected (eb_batch b))) dist = Ok (Fin (3 / 4))) /\
  estimates3 1 3 generate (fun b => mipw_value false None m_emb sort (Fin T) 2 (fun _ => []) (map Fin (b_reward (eb_batch b))) (map Z.of_nat (b_action (eb_batch b))) (map (map Z.of_nat) (eb_embed b))
                      (map (map (map Fin)) (b_pi (eb_batch b))) dist None (Some (map (map (map Fin)) (eb_pea b))) false) (27 / 32).
Proof.
  intros normal m_emb sort T pe dist generate.
  split. { rewrite C66_init. cbn [andb Z.leb Z.compare Pos.compare Pos.compare_cont]. unfold Rleb. destruct (Rle_dec 0 1); [reflexivity|lra]. }
  destruct ex_dims_hyps as (H1 & H2 & H3).
  destruct (C157_draws insertion_argsort (fun v p => Rltb v p) ex_dims (mkEc 2 3 1 1) (fun _ => 1 / 2) ex_dims_qe ex_dims_p 1 [[0]] (fun _ _ => 0) _ normal
    insertion_argsort_sorts less_is_coin less_is_possible ltac:(cbn; lia) ltac:(lia) H1 ltac:(cbn; lia) H2 eq_refl H3) as (pi & S & HP & H).
  assert (Pi : forall a, (a < 2)%nat -> pi 0%nat a = 1 / 2).
  { intros a Ha. destruct (HP 0%nat ltac:(lia)) as (A & B & _). cbn in A, B. rewrite (full_softmax _ _ _ _ _ _ A B a Ha). unfold full_boltzmann, ex_dims. cbn [sumn ds_beta]. rewrite !Rmult_0_l, exp_0. lra. }
  specialize (H pe). cbv zeta in H. destruct H as (G1 & _ & _ & G2).
  { intros i a _ _. unfold pe. destruct (Nat.eqb a 0); lra. }
  { intros i _. cbn. lra. }
  change (ds_K ex_dims) with 2%nat in G1, G2. change (ds_seed ex_dims) with 7%nat in G1, G2. cbn [ec_dim ec_hidden ec_cat ec_irrelevant] in G1, G2. change (Z.of_nat 1) with 1%Z in G1, G2. fold dist in G1, G2. fold generate in G1, G2.
  split.
  - intros us ws vs Hus Hws Hvs. destruct (G1 us ws vs Hus Hws Hvs) as (b & Eb & Ev). exists b. split; [exact Eb|]. rewrite Ev. do 2 f_equal.
    unfold avg, pe, embed_mean, P_DataEmbed.weight, ex_dims_qe, ex_dims_p, embed_dist, dtab, dprod, dbind, dmap. cbn. lra.
  - destruct G2 as [_ G2]; [lia|lia|]. destruct (G2 m_emb sort T) as [G3 _]. eapply eq_ind; [exact G3|].
    cbn [Nat.sub]. unfold avg. cbn [sumn]. rewrite !Pi by lia. unfold pe, observed_mean, P_DataEmbed.weight, ex_dims_qe, ex_dims_p. cbn [Nat.sub dprod dbind dmap]. unfold dtab. cbn. field.
Qed.

(** The hypotheses of [C157_draws] on the same dataset when one more dimension is hidden, so that a single one is observed. *)
Example C157_example : category_dists 2 2 3 ex_dims_p /\ (3 <= ds_seed ex_dims)%nat /\ (ds_deficient ex_dims < ds_K ex_dims)%nat /\ ds_binary ex_dims = true /\ embed_init 2 5 2 1 1 (Fin 1) = Ok (mkEc 2 3 2 2) /\
  (forall i v, (i < 1)%nat -> is_embedding 2 3 v -> 0 <= embed_mean 3 (P_DataEmbed.weight 2 (fun _ => 1)) ex_dims_qe i (fun k => nth k v 0%nat) <= 1) /\ is_embedding 2 3 [0; 1; 1]%nat /\
  (forall x, (x < 2)%nat -> 0 < sumn 2 (fun a => 1 / 2 * ex_dims_p a x (2 + 0)%nat)).
Proof.
  split; [apply ex_dims_hyps|]. split; [cbn; lia|]. split; [cbn; lia|]. split; [reflexivity|].
  split. { rewrite C66_init. cbn [andb Z.leb Z.compare Pos.compare Pos.compare_cont]. unfold Rleb. destruct (Rle_dec 0 1); [reflexivity|lra]. }
  split. { intros i v Hi [Hl Hv]. apply (C66_mean_range 3 2 (fun _ => 1) ex_dims_qe i (fun k => nth k v 0%nat) 0 1); [lia|intros; lra|cbn; lra|]. intros k Hk. unfold ex_dims_qe. destruct (Nat.eqb _ 0); lra. }
  split. { split; [reflexivity|]. intros k Hk. destruct k as [|[|[|k]]]; cbn; lia. }
  intros x Hx. unfold ex_dims_p. cbn. destruct x as [|[|x]]; cbn; lra.
Qed.

Print Assumptions C157_draws.
Print Assumptions C157_biased.
