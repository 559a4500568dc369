(** * L_Potential: the elliptical potential of a sequence of rank-one updates, through pivots (for C167). *)

From Coq Require Import Reals List Lia Lra Psatz.
From Verif Require Import Num NpList M_Linear S_Base S_Policy S_Linear L_Base L_Linear.
Import ListNotations.
Open Scope R_scope.

(** One step of symmetric elimination, the product of the pivots, and their positivity. *)
Definition schur (A : nat -> nat -> R) (i j : nat) : R := A (S i) (S j) - A (S i) 0%nat * A 0%nat (S j) / A 0%nat 0%nat.
Fixpoint pdet (d : nat) (A : nat -> nat -> R) : R := match d with O => 1 | S d' => A 0%nat 0%nat * pdet d' (schur A) end.
Fixpoint pivs (d : nat) (A : nat -> nat -> R) : Prop := match d with O => True | S d' => 0 < A 0%nat 0%nat /\ pivs d' (schur A) end.
Definition msym (d : nat) (A : nat -> nat -> R) : Prop := forall i j, (i < d)%nat -> (j < d)%nat -> A i j = A j i.
Definition mext (d : nat) (A B : nat -> nat -> R) : Prop := forall i j, (i < d)%nat -> (j < d)%nat -> A i j = B i j.

Lemma schur_ext d A B : mext (S d) A B -> mext d (schur A) (schur B).
Proof. intros H i j Hi Hj. unfold schur. rewrite !H by lia. reflexivity. Qed.
Lemma schur_sym d A : msym (S d) A -> msym d (schur A).
Proof. intros H i j Hi Hj. unfold schur. rewrite (H (S i) (S j)), (H (S i) 0%nat), (H 0%nat (S j)) by lia. unfold Rdiv. ring. Qed.
Lemma pdet_ext d : forall A B, mext d A B -> pdet d A = pdet d B.
Proof. induction d as [|d IH]; intros A B H; [reflexivity|]. cbn [pdet]. rewrite H by lia. f_equal. apply IH, schur_ext, H. Qed.
Lemma pivs_ext d : forall A B, mext d A B -> pivs d A -> pivs d B.
Proof. induction d as [|d IH]; intros A B H; [auto|]. cbn [pivs]. rewrite H by lia. intros [H1 H2]. split; auto. eapply IH; [apply schur_ext, H|auto]. Qed.

(** Symmetric rank-one update: the pivots stay positive and their product grows by 1 + k x^T A^-1 x. *)
Lemma pdet_update d : forall A x v k, msym d A -> pivs d A -> 0 <= k ->
  (forall i, (i < d)%nat -> sumn d (fun j => A i j * v j) = x i) ->
  pivs d (fun i j => A i j + k * (x i * x j)) /\
  pdet d (fun i j => A i j + k * (x i * x j)) = pdet d A * (1 + k * dot d x v).
Proof.
  induction d as [|d IH]; intros A x v k Hs Hp Hk Hv; [split; [exact I|simpl; unfold dot; simpl; ring]|].
  destruct Hp as [Ha Hp]. set (a := A 0%nat 0%nat) in *. set (x0 := x 0%nat).
  assert (Hx0 : 0 <= k * (x0 * x0)) by (apply Rmult_le_pos; [auto|nra]).
  set (u := fun i => x (S i) - A (S i) 0%nat * x0 / a). set (v' := fun i => v (S i)).
  set (k' := k * a / (a + k * (x0 * x0))).
  assert (Hk' : 0 <= k') by (apply Rmult_le_pos; [apply Rmult_le_pos; lra|left; apply Rinv_0_lt_compat; lra]).
  assert (E0 : sumn d (fun j => A 0%nat (S j) * v' j) = x0 - a * v 0%nat).
  { pose proof (Hv 0%nat ltac:(lia)) as H. rewrite sumn_S_first in H. fold a x0 in H. unfold v'. lra. }
  assert (Hv' : forall i, (i < d)%nat -> sumn d (fun j => schur A i j * v' j) = u i).
  { intros i Hi. pose proof (Hv (S i) ltac:(lia)) as H. rewrite sumn_S_first in H.
    rewrite (sumn_ext d _ (fun j => A (S i) (S j) * v' j - A (S i) 0%nat / a * (A 0%nat (S j) * v' j))).
    2:{ intros j Hj. unfold schur. fold a. field. lra. }
    rewrite sumn_minus, sumn_scal, E0. unfold u, v' in *.
    replace (sumn d (fun j => A (S i) (S j) * v (S j))) with (x (S i) - A (S i) 0%nat * v 0%nat) by lra. field. lra. }
  destruct (IH (schur A) u v' k' (schur_sym d A Hs) Hp Hk' Hv') as [P1 P2].
  assert (X : mext d (fun i j => schur A i j + k' * (u i * u j)) (schur (fun i j => A i j + k * (x i * x j)))).
  { intros i j Hi Hj. unfold schur, u, k'. fold a x0. rewrite (Hs 0%nat (S j)) by lia. field. lra. }
  split.
  - cbn [pivs]. fold a x0. split; [lra|]. apply (pivs_ext d _ _ X P1).
  - cbn [pdet]. rewrite <- (pdet_ext d _ _ X), P2. fold a x0.
    assert (D : dot d u v' = dot (S d) x v - x0 * x0 / a).
    { unfold dot. rewrite sumn_S_first. fold x0.
      rewrite (sumn_ext d (fun i => u i * v' i) (fun i => x (S i) * v (S i) - x0 / a * (A 0%nat (S i) * v' i))).
      2:{ intros i Hi. unfold u, v'. rewrite (Hs 0%nat (S i)) by lia. field. lra. }
      rewrite sumn_minus, sumn_scal, E0. field. lra. }
    rewrite D. unfold k'. field. lra.
Qed.

(** The product of the pivots is at most the product of the diagonal. *)
Lemma pivs_diag d : forall A, msym d A -> pivs d A -> forall i, (i < d)%nat -> 0 < A i i.
Proof.
  induction d as [|d IH]; intros A Hs Hp i Hi; [lia|]. destruct Hp as [Ha Hp]. destruct i as [|i]; [auto|].
  pose proof (IH (schur A) (schur_sym d A Hs) Hp i ltac:(lia)) as H. unfold schur in H. rewrite (Hs 0%nat (S i)) in H by lia.
  assert (0 <= A (S i) 0%nat * A (S i) 0%nat / A 0%nat 0%nat).
  { apply Rmult_le_pos; [nra|left; apply Rinv_0_lt_compat; auto]. }
  lra.
Qed.
Lemma pdet_pos d : forall A, pivs d A -> 0 < pdet d A.
Proof. induction d as [|d IH]; intros A H; cbn [pdet]; [lra|]. destruct H. apply Rmult_lt_0_compat; auto. Qed.
Lemma pdet_bound d : forall A M, msym d A -> pivs d A -> (forall i, (i < d)%nat -> A i i <= M) -> pdet d A <= M ^ d.
Proof.
  induction d as [|d IH]; intros A M Hs Hp HM; cbn [pdet pow]; [lra|].
  pose proof (pdet_pos (S d) A Hp) as P. destruct Hp as [Ha Hp]. apply Rmult_le_compat.
  - lra.
  - left. apply pdet_pos; auto.
  - apply HM. lia.
  - apply IH; [apply schur_sym; auto|auto|]. intros i Hi. eapply Rle_trans; [|apply (HM (S i)); lia].
    unfold schur. rewrite (Hs 0%nat (S i)) by lia.
    assert (0 <= A (S i) 0%nat * A (S i) 0%nat / A 0%nat 0%nat) by (apply Rmult_le_pos; [nra|left; apply Rinv_0_lt_compat; auto]). lra.
Qed.
Lemma pdet_id d : pivs d delta /\ pdet d delta = 1.
Proof.
  assert (X : forall d, mext d delta (schur delta)).
  { intros n i j Hi Hj. unfold schur, delta. cbn [Nat.eqb]. destruct (Nat.eqb i j); field. }
  induction d as [|d [H1 H2]]; [split; [exact I|reflexivity]|]. cbn [pivs pdet]. unfold delta at 1 3. cbn [Nat.eqb]. split.
  - split; [lra|]. apply (pivs_ext d _ _ (X d) H1).
  - rewrite <- (pdet_ext d _ _ (X d)), H2. ring.
Qed.

(** q <= (1 + c) ln (1 + q) for 0 <= q <= c. *)
Lemma ln_lower q c : 0 <= q <= c -> q <= (1 + c) * ln (1 + q).
Proof.
  intros [H0 Hc]. assert (L : q / (1 + q) <= ln (1 + q)).
  { assert (E : ln (/ (1 + q)) = - ln (1 + q)) by (apply ln_Rinv; lra).
    pose proof (exp_ineq1_le (ln (/ (1 + q)))) as H. rewrite exp_ln in H by (apply Rinv_0_lt_compat; lra). rewrite E in H.
    replace (q / (1 + q)) with (1 - / (1 + q)) by (field; lra). lra. }
  assert (0 <= q / (1 + q)) by (apply Rmult_le_pos; [auto|left; apply Rinv_0_lt_compat; lra]).
  eapply Rle_trans; [|apply Rmult_le_compat_l; [lra|exact L]].
  assert (E : q = (1 + q) * (q / (1 + q))) by (field; lra).
  rewrite E at 1. apply Rmult_le_compat_r; [auto|lra].
Qed.

(** The Gram matrices of a growing history. *)
Lemma gram_msym K h a d : msym d (gram K h a).
Proof. intros i j _ _. apply gram_sym. Qed.
Lemma gram_diag_bound K a (B : R) : 0 <= B -> forall h i, (forall e, In e h -> rd_x e i ^ 2 <= B) -> gram K h a i i <= 1 + INR (length h) * B.
Proof.
  intros HB h i. unfold gram. unfold delta at 1. rewrite Nat.eqb_refl. induction h as [|e h IH]; intros H; [simpl; lra|].
  cbn [lsum length]. rewrite S_INR. specialize (IH (fun e' He => H e' (or_intror He))). pose proof (H e (or_introl eq_refl)) as He.
  destruct (Nat.eqb _ _); nra.
Qed.
Lemma gram_pdet_snoc K d h e a M : pivs d (gram K h a) -> is_inverse d (gram K h a) M ->
  let q := dot d (rd_x e) (mvec d M (rd_x e)) in
  pivs d (gram K (h ++ [e]) a) /\
  pdet d (gram K (h ++ [e]) a) = pdet d (gram K h a) * (if Nat.eqb (slot K (rd_action e)) a then 1 + q else 1).
Proof.
  intros Hp HI q. destruct (Nat.eqb (slot K (rd_action e)) a) eqn:E.
  - destruct (pdet_update d (gram K h a) (rd_x e) (mvec d M (rd_x e)) 1 (gram_msym K h a d) Hp ltac:(lra)) as [P1 P2].
    { intros i Hi. unfold mvec. rewrite (sumn_ext d _ (fun j => sumn d (fun l => gram K h a i j * M j l * rd_x e l))).
      2:{ intros j Hj. rewrite <- sumn_scal. apply sumn_ext. intros. ring. }
      rewrite sumn_swap, (sumn_ext d _ (fun l => delta i l * rd_x e l)). apply sumn_delta; auto.
      intros l Hl. rewrite sumn_scal_r. f_equal. apply (HI i l Hi Hl). }
    assert (X : mext d (fun i j => gram K h a i j + 1 * (rd_x e i * rd_x e j)) (gram K (h ++ [e]) a)).
    { intros i j Hi Hj. unfold gram. rewrite lsum_app. cbn [lsum]. rewrite E. ring. }
    split; [apply (pivs_ext d _ _ X P1)|]. rewrite <- (pdet_ext d _ _ X), P2. fold q. ring.
  - assert (X : mext d (gram K h a) (gram K (h ++ [e]) a)).
    { intros i j Hi Hj. unfold gram. rewrite lsum_app. cbn [lsum]. rewrite E. ring. }
    split; [apply (pivs_ext d _ _ X Hp)|]. rewrite <- (pdet_ext d _ _ X). ring.
Qed.
