(** * L_Draws: means over uniform draws. *)

From Coq Require Import Reals List Lia Lra.
From Coquelicot Require Import Coquelicot.
From Verif Require Import Num NpList M_Utils S_Base S_Draws L_Num L_Base L_Utils.
Import ListNotations.
Open Scope R_scope.

Lemma is_RInt_val (f : R -> R) a b (l l' : R) : l = l' -> is_RInt f a b l -> is_RInt f a b l'.
Proof. intros ->. auto. Qed.

Lemma const_int a b (c : R) : is_RInt (fun _ : R => c) a b ((b - a) * c).
Proof. apply (is_RInt_const (V := R_NormedModule)). Qed.

Lemma mean_ext n : forall F F' v, (forall us, unit_draws us -> F us = F' us) -> uniform_mean n F v -> uniform_mean n F' v.
Proof.
  induction n as [|n IH]; intros F F' v H; cbn [uniform_mean].
  - intros <-. symmetry. apply H. intros i. lra.
  - intros (G & HG & HI). exists G. split; auto. intros u Hu. eapply IH; [|apply HG; auto]. cbn. intros us Hus. apply H. intros [|i]; cbn; auto.
Qed.

Lemma mean_const n c : uniform_mean n (fun _ => c) c.
Proof.
  induction n as [|n IH]; cbn [uniform_mean]; auto. exists (fun _ => c). split; auto.
  eapply is_RInt_val; [|apply const_int]. ring.
Qed.

Lemma mean_sum n : forall (h : nat -> R -> R) (m : nat -> R) c, (forall i, (i < n)%nat -> is_RInt (h i) 0 1 (m i)) ->
  uniform_mean n (fun us => c + sumn n (fun i => h i (us i))) (c + sumn n m).
Proof.
  induction n as [|n IH]; intros h m c H; [reflexivity|]. cbn [uniform_mean].
  exists (fun u => (c + h 0%nat u) + sumn n (fun i => m (S i))). split.
  - intros u Hu. eapply (mean_ext n); [|apply (IH (fun i => h (S i)) (fun i => m (S i)) (c + h 0%nat u))].
    + intros us _. rewrite sumn_S_first. cbn [scons]. ring.
    + intros i Hi. apply H. lia.
  - rewrite sumn_S_first. eapply is_RInt_val; [|apply (is_RInt_plus (V := R_NormedModule)); [apply (is_RInt_plus (V := R_NormedModule)); [apply const_int|apply H; lia]|apply const_int]].
    unfold plus; simpl. ring.
Qed.

Lemma mean_scal n : forall F v k, uniform_mean n F v -> uniform_mean n (fun us => k * F us) (k * v).
Proof.
  induction n as [|n IH]; intros F v k; cbn [uniform_mean].
  - intros <-. reflexivity.
  - intros (G & HG & HI). exists (fun u => k * G u). split; [intros u Hu; apply IH; auto|]. apply (is_RInt_scal (V := R_NormedModule)). auto.
Qed.

Lemma mean_avg n (h : nat -> R -> R) (m : nat -> R) : (forall i, (i < n)%nat -> is_RInt (h i) 0 1 (m i)) ->
  uniform_mean n (fun us => avg n (fun i => h i (us i))) (avg n m).
Proof.
  intros H. unfold avg. eapply mean_ext; [|replace (sumn n m / INR n) with (/ INR n * (0 + sumn n m)) by (unfold Rdiv; ring); apply mean_scal; apply (mean_sum n h m 0 H)].
  intros us _. cbn. unfold Rdiv. ring.
Qed.

(** ** The sampler *)

Lemma firstn_sum K (p : nat -> R) a : (a <= K)%nat -> Rsum (firstn a (tab K p)) = sumn a p.
Proof.
  intros Ha. induction a as [|a IH]; [reflexivity|]. rewrite firstn_S_sum by (rewrite tab_length; lia). rewrite IH by lia.
  rewrite (nth_tab K p a) by lia. reflexivity.
Qed.

Lemma sample_at K (p : nat -> R) a u : (forall b, (b < K)%nat -> 0 <= p b) -> (a < K)%nat -> sumn a p <= u < sumn (S a) p -> sample_action_row (tab K p) u = a.
Proof.
  intros Hp Ha Hu. apply sample_row_char.
  - intros v Hv. apply In_tab in Hv as (b & Hb & <-). auto.
  - assert (0 <= sumn a p) by (apply sumn_nonneg; intros; apply Hp; lia). lra.
  - rewrite tab_length. auto.
  - rewrite !firstn_sum by lia. auto.
Qed.

Lemma sampler_int K (p g : nat -> R) : (forall a, (a < K)%nat -> 0 <= p a) ->
  forall k, (k <= K)%nat -> is_RInt (fun u => g (sample_action_row (tab K p) u)) 0 (sumn k p) (sumn k (fun a => p a * g a)).
Proof.
  intros Hp. induction k as [|k IH]; intros Hk.
  - cbn. apply (is_RInt_point (V := R_NormedModule)).
  - cbn [sumn]. apply (is_RInt_Chasles (V := R_NormedModule) _ _ (sumn k p)); [apply IH; lia|].
    apply (is_RInt_ext (V := R_NormedModule) (fun _ => g k)).
    + intros u Hu. assert (0 <= p k) by (apply Hp; lia). rewrite Rmin_left, Rmax_right in Hu by lra.
      rewrite (sample_at K p k); auto; try lia. cbn [sumn]. lra.
    + eapply is_RInt_val; [|apply const_int]. ring.
Qed.

Lemma sampler_mean K (p g : nat -> R) : (forall a, (a < K)%nat -> 0 <= p a) -> sumn K p = 1 ->
  is_RInt (fun u => g (sample_action_row (tab K p) u)) 0 1 (sumn K (fun a => p a * g a)).
Proof. intros Hp Hs. rewrite <- Hs at 1. apply sampler_int; auto. Qed.

Lemma joint_mean n K : forall (p : nat -> nat -> R) F, (forall i a, (i < n)%nat -> (a < K)%nat -> 0 <= p i a) -> (forall i, (i < n)%nat -> sumn K (p i) = 1) ->
  (forall act act', (forall i, (i < n)%nat -> act i = act' i) -> F act = F act') ->
  uniform_mean n (fun us => F (fun i => sample_action_row (tab K (p i)) (us i))) (product_mean n K p F).
Proof.
  induction n as [|n IH]; intros p F Hp Hs HF; cbn [uniform_mean product_mean].
  - apply HF. lia.
  - exists (fun u => product_mean n K (fun i => p (S i)) (fun act => F (scons (sample_action_row (tab K (p 0%nat)) u) act))). split.
    + intros u Hu. eapply mean_ext; [|apply (IH (fun i => p (S i)) (fun act => F (scons (sample_action_row (tab K (p 0%nat)) u) act)))].
      * intros us Hus. cbn. apply HF. intros [|i] Hi; reflexivity.
      * intros; apply Hp; lia.
      * intros; apply Hs; lia.
      * intros act act' E. apply HF. intros [|i] Hi; cbn; auto. apply E. lia.
    + apply (sampler_mean K (p 0%nat) (fun a => product_mean n K (fun i => p (S i)) (fun act => F (scons a act)))); [intros; apply Hp; lia|apply Hs; lia].
Qed.

Lemma less_is_coin : fair_coin (fun v p => Rltb v p).
Proof.
  intros p Hp. eapply is_RInt_val; [|apply (is_RInt_Chasles (V := R_NormedModule) _ 0 p 1 (p * 1) ((1 - p) * 0))]; [unfold plus; simpl; ring| |].
  - apply (is_RInt_ext (V := R_NormedModule) (fun _ => 1)).
    + intros u Hu. rewrite Rmin_left, Rmax_right in Hu by lra. rewrite (proj2 (Rltb_true u p)) by lra. reflexivity.
    + eapply is_RInt_val; [|apply const_int]. ring.
  - apply (is_RInt_ext (V := R_NormedModule) (fun _ => 0)).
    + intros u Hu. rewrite Rmin_left, Rmax_right in Hu by lra. rewrite (proj2 (Rltb_false u p)) by lra. reflexivity.
    + eapply is_RInt_val; [|apply const_int]. ring.
Qed.
