(** * L_Num: lemmas about [num] and the monad. *)

From Coq Require Import Reals List ZArith Bool Lia Lra.
From Verif Require Import Num.
Import ListNotations.
Open Scope R_scope.

Lemma Rleb_true x y : Rleb x y = true <-> x <= y.
Proof. unfold Rleb; destruct (Rle_dec x y); split; intros; try easy; lra. Qed.
Lemma Rleb_false x y : Rleb x y = false <-> y < x.
Proof. unfold Rleb; destruct (Rle_dec x y); split; intros; try easy; lra. Qed.
Lemma Rltb_true x y : Rltb x y = true <-> x < y.
Proof. unfold Rltb; destruct (Rlt_dec x y); split; intros; try easy; lra. Qed.
Lemma Rltb_false x y : Rltb x y = false <-> y <= x.
Proof. unfold Rltb; destruct (Rlt_dec x y); split; intros; try easy; lra. Qed.
Lemma Reqb_true x y : Reqb x y = true <-> x = y.
Proof. unfold Reqb; destruct (Req_EM_T x y); split; intros; try easy; lra. Qed.
Lemma Reqb_false x y : Reqb x y = false <-> x <> y.
Proof. unfold Reqb; destruct (Req_EM_T x y); split; intros; try easy; lra. Qed.
Lemma Reqb_refl x : Reqb x x = true.
Proof. apply Reqb_true; reflexivity. Qed.

(** Decide real comparisons between literals (used in concrete examples). *)
Ltac rdec :=
  repeat match goal with
  | |- context [Rleb ?x ?y] =>
      first [ replace (Rleb x y) with true by (symmetry; apply Rleb_true; lra)
            | replace (Rleb x y) with false by (symmetry; apply Rleb_false; lra) ]
  | |- context [Rltb ?x ?y] =>
      first [ replace (Rltb x y) with true by (symmetry; apply Rltb_true; lra)
            | replace (Rltb x y) with false by (symmetry; apply Rltb_false; lra) ]
  | |- context [Reqb ?x ?y] =>
      first [ replace (Reqb x y) with true by (symmetry; apply Reqb_true; lra)
            | replace (Reqb x y) with false by (symmetry; apply Reqb_false; lra) ]
  end.

Lemma bind_Ok {A B} (m : res A) (k : A -> res B) b :
  bind m k = Ok b -> exists a, m = Ok a /\ k a = Ok b.
Proof. destruct m; simpl; intros; [eauto | discriminate]. Qed.

Lemma raise_if_Ok b e u : raise_if b e = Ok u -> b = false.
Proof. destruct b; simpl; congruence. Qed.

Lemma raise_if_false e : raise_if false e = Ok tt.
Proof. reflexivity. Qed.

Lemma mapM_ext {A B} (f g : A -> res B) l :
  (forall x, In x l -> f x = g x) -> mapM f l = mapM g l.
Proof.
  induction l; simpl; intros H; auto. rewrite H by auto. rewrite IHl by auto. reflexivity.
Qed.

Lemma mapM_Ok {A B} (f : A -> res B) (g : A -> B) l :
  (forall x, In x l -> f x = Ok (g x)) -> mapM f l = Ok (map g l).
Proof.
  induction l; simpl; intros H; auto. rewrite H by auto. simpl. rewrite IHl by auto. reflexivity.
Qed.

Lemma mapM_map {A B C} (f : B -> res C) (g : A -> B) l :
  mapM f (map g l) = mapM (fun x => f (g x)) l.
Proof. induction l; simpl; auto. rewrite IHl. reflexivity. Qed.

Lemma mapM_inv {A B} (f : A -> res B) l ys :
  mapM f l = Ok ys -> Forall2 (fun x y => f x = Ok y) l ys.
Proof.
  revert ys; induction l as [|a l IH]; simpl; intros ys H.
  - injection H as <-. constructor.
  - apply bind_Ok in H as (y & Hy & H). apply bind_Ok in H as (ys' & Hys & H).
    injection H as <-. constructor; auto.
Qed.

Lemma mapM_length {A B} (f : A -> res B) l ys : mapM f l = Ok ys -> length ys = length l.
Proof. intros H; apply mapM_inv in H. induction H; simpl; congruence. Qed.

Lemma mapM_Err {A B} (f : A -> res B) l1 x l2 e (g : A -> B) :
  (forall y, In y l1 -> f y = Ok (g y)) -> f x = Err e -> mapM f (l1 ++ x :: l2) = Err e.
Proof.
  induction l1; simpl; intros H1 H2.
  - rewrite H2; reflexivity.
  - rewrite H1 by auto. simpl. rewrite IHl1; auto.
Qed.

(** Arithmetic on finite values. *)
Lemma nadd_Fin a b : nadd (Fin a) (Fin b) = Fin (a + b). Proof. reflexivity. Qed.
Lemma nsub_Fin a b : nsub (Fin a) (Fin b) = Fin (a - b). Proof. reflexivity. Qed.
Lemma nmul_Fin a b : nmul (Fin a) (Fin b) = Fin (a * b). Proof. reflexivity. Qed.
Lemma ndiv_Fin a b : b <> 0 -> ndiv (Fin a) (Fin b) = Fin (a / b).
Proof. intros H; simpl. apply Reqb_false in H; rewrite H; reflexivity. Qed.
Lemma nmin_Fin a b : nmin (Fin a) (Fin b) = Fin (Rmin a b).
Proof.
  unfold nmin, Rmin; simpl. unfold Rleb. destruct (Rle_dec a b); reflexivity.
Qed.
Lemma nmax_Fin a b : nmax (Fin a) (Fin b) = Fin (Rmax a b).
Proof.
  unfold nmax, Rmax; simpl. unfold Rleb. destruct (Rle_dec a b); reflexivity.
Qed.
Lemma nmin_PInf a : nmin (Fin a) PInf = Fin a. Proof. reflexivity. Qed.
Lemma ndiv_0_0 : ndiv (Fin 0) (Fin 0) = NaN.
Proof. simpl. rewrite Reqb_refl. unfold inf_sign. rdec. reflexivity. Qed.
Lemma nsqrt_Fin a : 0 <= a -> nsqrt (Fin a) = Fin (sqrt a).
Proof. intros; simpl. apply Rltb_false in H; rewrite H; reflexivity. Qed.
Lemma nlog_Fin a : 0 < a -> nlog (Fin a) = Fin (ln a).
Proof.
  intros; simpl. destruct (Rltb a 0) eqn:E. apply Rltb_true in E; lra.
  destruct (Reqb a 0) eqn:E2. apply Reqb_true in E2; lra. reflexivity.
Qed.
Lemma nadd_NaN_l x : nadd NaN x = NaN. Proof. destruct x; reflexivity. Qed.
Lemma nadd_NaN_r x : nadd x NaN = NaN. Proof. destruct x; reflexivity. Qed.
Lemma nmul_NaN_l x : nmul NaN x = NaN. Proof. destruct x; reflexivity. Qed.
Lemma nmul_NaN_r x : nmul x NaN = NaN. Proof. destruct x; reflexivity. Qed.
Lemma ndiv_NaN_l x : ndiv NaN x = NaN. Proof. destruct x; reflexivity. Qed.
Lemma ndiv_NaN_r x : ndiv x NaN = NaN. Proof. destruct x; reflexivity. Qed.
Lemma nsub_NaN_l x : nsub NaN x = NaN. Proof. unfold nsub. apply nadd_NaN_l. Qed.
Lemma nsub_NaN_r x : nsub x NaN = NaN. Proof. unfold nsub. simpl. apply nadd_NaN_r. Qed.
