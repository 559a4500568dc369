(** * L_Prob: lemmas on finite expectations. *)

From Coq Require Import Reals List ZArith Lia Lra.
From Verif Require Import Num S_Base S_Prob L_Num L_Base.
Import ListNotations.
Open Scope R_scope.

Lemma expect_ext {A} (d : dist A) f g :
  (forall a p, In (a, p) d -> p <> 0 -> f a = g a) -> expect d f = expect d g.
Proof.
  induction d as [|[a p] d IH]; simpl; intros H; auto.
  rewrite IH by (intros; eapply H; eauto). f_equal.
  destruct (Req_dec p 0) as [->|]. lra. rewrite (H a p); auto.
Qed.
Lemma expect_ext_all {A} (d : dist A) f g : (forall a, f a = g a) -> expect d f = expect d g.
Proof. intros; apply expect_ext; auto. Qed.
Lemma expect_plus {A} (d : dist A) f g : expect d (fun a => f a + g a) = expect d f + expect d g.
Proof. induction d; simpl; [lra|]. rewrite IHd. lra. Qed.
Lemma expect_minus {A} (d : dist A) f g : expect d (fun a => f a - g a) = expect d f - expect d g.
Proof. induction d; simpl; [lra|]. rewrite IHd. lra. Qed.
Lemma expect_scal {A} (d : dist A) c f : expect d (fun a => c * f a) = c * expect d f.
Proof. induction d; simpl; [lra|]. rewrite IHd. lra. Qed.
Lemma expect_scal_r {A} (d : dist A) c f : expect d (fun a => f a * c) = expect d f * c.
Proof. induction d; simpl; [lra|]. rewrite IHd. lra. Qed.
Lemma expect_const {A} (d : dist A) c : is_dist d -> expect d (fun _ => c) = c.
Proof.
  intros [_ H]. rewrite (expect_ext_all d (fun _ => c) (fun _ => c * 1)) by (intros; lra).
  rewrite expect_scal, H. lra.
Qed.
Lemma expect_app {A} (d1 d2 : dist A) f : expect (d1 ++ d2) f = expect d1 f + expect d2 f.
Proof. induction d1; simpl; [lra|]. rewrite IHd1. lra. Qed.
Lemma expect_map_scale {A} (d : dist A) c f :
  expect (map (fun yq => (fst yq, c * snd yq)) d) f = c * expect d f.
Proof. induction d; simpl; [lra|]. rewrite IHd. lra. Qed.
Lemma expect_dbind {A B} (d : dist A) (k : A -> dist B) f :
  expect (dbind d k) f = expect d (fun a => expect (k a) f).
Proof.
  induction d as [|[a p] d IH]; simpl; auto.
  unfold dbind in *. simpl. rewrite expect_app, IH, expect_map_scale. lra.
Qed.
Lemma expect_dmap {A B} (d : dist A) (h : A -> B) f :
  expect (dmap h d) f = expect d (fun a => f (h a)).
Proof. induction d; simpl; auto. unfold dmap in *. rewrite IHd. reflexivity. Qed.
Lemma expect_dtab k w f : expect (dtab k w) f = sumn k (fun a => f a * w a).
Proof.
  unfold dtab. revert w f. induction k; intros; auto.
  rewrite tab_S_first, sumn_S_first. simpl. f_equal.
  specialize (IHk (fun a => w (S a)) (fun a => f (S a))). rewrite <- IHk.
  clear. unfold tab. generalize (seq 0 k). induction l; simpl; auto. rewrite IHl. reflexivity.
Qed.
Lemma expect_nonneg {A} (d : dist A) f :
  (forall a p, In (a, p) d -> 0 <= p) -> (forall a p, In (a,p) d -> 0 <= f a) -> 0 <= expect d f.
Proof.
  induction d as [|[a p] d IH]; simpl; intros Hp Hf; [lra|].
  assert (0 <= expect d f) by (apply IH; intros; eauto).
  assert (0 <= f a * p) by (apply Rmult_le_pos; eauto). lra.
Qed.
Lemma expect_le {A} (d : dist A) f g :
  (forall a p, In (a, p) d -> 0 <= p) -> (forall a p, In (a,p) d -> f a <= g a) ->
  expect d f <= expect d g.
Proof.
  intros H1 H2. assert (0 <= expect d (fun a => g a - f a)).
  { apply expect_nonneg; auto. intros a p Hp; specialize (H2 a p Hp); lra. }
  rewrite expect_minus in H. lra.
Qed.
Lemma expect_sumn {A} (d : dist A) n (f : nat -> A -> R) :
  expect d (fun a => sumn n (fun i => f i a)) = sumn n (fun i => expect d (f i)).
Proof.
  induction n; simpl.
  - induction d; simpl; [lra|]. rewrite IHd; lra.
  - rewrite expect_plus, IHn. reflexivity.
Qed.

Lemma In_dbind {A B} (d : dist A) (k : A -> dist B) b p :
  In (b, p) (dbind d k) -> exists a p1 p2, In (a, p1) d /\ In (b, p2) (k a) /\ p = p1 * p2.
Proof.
  unfold dbind. rewrite in_flat_map. intros ([a p1] & H1 & H2). simpl in H2.
  apply in_map_iff in H2 as ([b' p2] & E & H2). simpl in E. injection E as <- <-.
  eauto 7.
Qed.
Lemma In_dmap {A B} (d : dist A) (h : A -> B) b p :
  In (b, p) (dmap h d) -> exists a, b = h a /\ In (a, p) d.
Proof.
  unfold dmap. rewrite in_map_iff. intros ([a p'] & E & H). simpl in E. injection E as <- <-. eauto.
Qed.
Lemma In_dtab k w a p : In (a, p) (dtab k w) -> (a < k)%nat /\ p = w a.
Proof. unfold dtab. intros H. apply In_tab in H as (i & Hi & E). injection E as <- <-. auto. Qed.

Lemma is_dist_dbind {A B} (d : dist A) (k : A -> dist B) :
  is_dist d -> (forall a p, In (a, p) d -> is_dist (k a)) -> is_dist (dbind d k).
Proof.
  intros [H1 H2] Hk. split.
  - intros b p H. apply In_dbind in H as (a & p1 & p2 & Ha & Hb & ->).
    apply Rmult_le_pos. eauto. destruct (Hk a p1 Ha) as [Hn _]. eauto.
  - rewrite expect_dbind. transitivity (expect d (fun _ => 1)); auto. apply expect_ext.
    intros a p Ha _. apply (Hk a p Ha).
Qed.
Lemma is_dist_dmap {A B} (d : dist A) (h : A -> B) : is_dist d -> is_dist (dmap h d).
Proof.
  intros [H1 H2]. split.
  - intros b p H. apply In_dmap in H as (a & -> & Ha). eauto.
  - rewrite expect_dmap. auto.
Qed.
Lemma is_dist_dtab k w : (forall a, (a < k)%nat -> 0 <= w a) -> sumn k w = 1 -> is_dist (dtab k w).
Proof.
  intros H1 H2. split.
  - intros a p H. apply In_dtab in H as [H ->]. auto.
  - rewrite expect_dtab. transitivity (sumn k w); auto. apply sumn_ext. intros; lra.
Qed.

Lemma is_dist_dprod {A} n (D : nat -> dist A) :
  (forall i, (i < n)%nat -> is_dist (D i)) -> is_dist (dprod n D).
Proof.
  induction n; simpl; intros H.
  - split. intros a p [E|[]]. injection E as <- <-; lra. simpl; lra.
  - apply is_dist_dbind; auto. intros. apply is_dist_dmap. auto.
Qed.
Lemma In_dprod {A} n (D : nat -> dist A) o p :
  In (o, p) (dprod n D) -> p <> 0 ->
  length o = n /\ forall i d, (i < n)%nat -> exists q, In (nth i o d, q) (D i) /\ q <> 0.
Proof.
  revert o p; induction n; simpl; intros o p H Hp.
  - destruct H as [E|[]]. injection E as <- <-. split; auto. intros; lia.
  - apply In_dbind in H as (o' & p1 & p2 & H1 & H2 & ->).
    apply In_dmap in H2 as (x & -> & H2).
    assert (p1 <> 0 /\ p2 <> 0) as [Hp1 Hp2].
    { split; intros E; apply Hp; rewrite E; lra. }
    destruct (IHn o' p1 H1 Hp1) as [Hl Hi]. split.
    + rewrite app_length; simpl; lia.
    + intros i d Hlt. destruct (Nat.eq_dec i n) as [->|].
      * rewrite app_nth2 by lia. rewrite Hl, Nat.sub_diag. simpl. eauto.
      * rewrite app_nth1 by lia. apply Hi; lia.
Qed.

(** Linearity: the expectation of a sum over rounds is the sum of per-round expectations. *)
Lemma expect_dprod_sumn {A} n (D : nat -> dist A) (g : nat -> A -> R) (x0 : A) :
  (forall i, (i < n)%nat -> is_dist (D i)) ->
  expect (dprod n D) (fun o => sumn n (fun i => g i (nth i o x0)))
  = sumn n (fun i => expect (D i) (g i)).
Proof.
  induction n; simpl; intros H; [lra|].
  rewrite expect_dbind.
  rewrite (expect_ext (dprod n D) _
            (fun o => sumn n (fun i => g i (nth i o x0)) + expect (D n) (g n))).
  - rewrite expect_plus, IHn by auto. rewrite expect_const by (apply is_dist_dprod; auto). lra.
  - intros o p Ho Hp. apply In_dprod in Ho as [Hl _]; auto. rewrite expect_dmap.
    rewrite (expect_ext_all (D n) _ (fun x => sumn n (fun i => g i (nth i o x0)) + g n x)).
    + rewrite expect_plus, expect_const by auto. reflexivity.
    + intros x. f_equal.
      * apply sumn_ext. intros i Hi. rewrite app_nth1 by lia. reflexivity.
      * rewrite app_nth2 by lia. rewrite Hl, Nat.sub_diag. reflexivity.
Qed.

Lemma expect_dprod_avg {A} n (D : nat -> dist A) (g : nat -> A -> R) (x0 : A) :
  (forall i, (i < n)%nat -> is_dist (D i)) ->
  expect (dprod n D) (fun o => avg n (fun i => g i (nth i o x0)))
  = avg n (fun i => expect (D i) (g i)).
Proof.
  intros H. unfold avg, Rdiv. rewrite expect_scal_r. f_equal. apply expect_dprod_sumn; auto.
Qed.
