(** * L_SlateData: lemmas about the slate generator. *)

From Coq Require Import Reals List ZArith Bool Lia Lra Sorted Permutation.
From Verif Require Import Num NpList M_Utils M_Data M_SlateData S_Base S_Data S_SlateData L_Num L_Base L_Utils L_Data.
Import ListNotations.
Open Scope R_scope.

Definition del (avail : list nat) (a : nat) : list nat := delete_action avail (Z.of_nat a).
Lemma del_filter avail a : del avail a = filter (fun b => negb (Nat.eqb b a)) avail.
Proof.
  unfold del, delete_action. apply filter_ext. intros b. f_equal. destruct (Nat.eqb_spec b a) as [->|H].
  - apply Z.eqb_refl.
  - apply Z.eqb_neq. lia.
Qed.
Lemma In_del avail a b : In b (del avail a) <-> In b avail /\ b <> a.
Proof.
  rewrite del_filter, filter_In. rewrite negb_true_iff, Nat.eqb_neq. tauto.
Qed.
Lemma NoDup_del avail a : NoDup avail -> NoDup (del avail a).
Proof. intros H. rewrite del_filter. apply NoDup_filter, H. Qed.
Lemma del_notin avail a : ~ In a avail -> del avail a = avail.
Proof.
  intros H. rewrite del_filter. induction avail as [|b l IH]; [reflexivity|].
  cbn [filter]. destruct (Nat.eqb_spec b a) as [->|Hb].
  - exfalso. apply H. left; reflexivity.
  - cbn [negb]. f_equal. apply IH. intros Hin. apply H. right; assumption.
Qed.
Lemma del_length avail a : NoDup avail -> In a avail -> length (del avail a) = (length avail - 1)%nat.
Proof.
  intros Hn Ha. rewrite del_filter. induction avail as [|b l IH]; [inversion Ha|].
  inversion Hn; subst. cbn [filter]. destruct (Nat.eqb_spec b a) as [->|Hb].
  - cbn [negb]. pose proof (del_notin l a H1) as E. rewrite del_filter in E. rewrite E. simpl. lia.
  - cbn [negb length]. destruct Ha as [->|Ha]; [contradiction|]. rewrite IH; auto.
    destruct l; [inversion Ha|simpl; lia].
Qed.

Lemma sum_list_over (S : list nat) f : sum_over S f = sum_list S f.
Proof. reflexivity. Qed.
Lemma sum_list_cons {A} (a : A) l f : sum_list (a :: l) f = f a + sum_list l f.
Proof. reflexivity. Qed.
Lemma sum_list_app {A} (l1 l2 : list A) f : sum_list (l1 ++ l2) f = sum_list l1 f + sum_list l2 f.
Proof. induction l1 as [|a l IH]; cbn [app]; [unfold sum_list; simpl; ring|]. rewrite !sum_list_cons, IH. ring. Qed.
Lemma sum_list_ext {A} (l : list A) f g : (forall a, In a l -> f a = g a) -> sum_list l f = sum_list l g.
Proof.
  induction l as [|a l IH]; intros H; [reflexivity|]. rewrite !sum_list_cons, H by (left; reflexivity).
  rewrite IH; [reflexivity|]. intros b Hb. apply H. right; assumption.
Qed.
Lemma sum_list_scal {A} (l : list A) f c : sum_list l (fun a => c * f a) = c * sum_list l f.
Proof. induction l as [|a l IH]; [unfold sum_list; simpl; ring|]. rewrite !sum_list_cons, IH. ring. Qed.
Lemma sum_list_plus {A} (l : list A) f g : sum_list l (fun a => f a + g a) = sum_list l f + sum_list l g.
Proof. induction l as [|a l IH]; [unfold sum_list; simpl; ring|]. rewrite !sum_list_cons, IH. ring. Qed.
Lemma sum_list_map {A B} (h : A -> B) l f : sum_list (map h l) f = sum_list l (fun a => f (h a)).
Proof. unfold sum_list. rewrite map_map. reflexivity. Qed.
Lemma sum_list_flat_map {A B} (h : A -> list B) l f : sum_list (flat_map h l) f = sum_list l (fun a => sum_list (h a) f).
Proof. induction l as [|a l IH]; [reflexivity|]. cbn [flat_map]. rewrite sum_list_app, IH. reflexivity. Qed.
Lemma sum_list_zero {A} (l : list A) f : (forall a, In a l -> f a = 0) -> sum_list l f = 0.
Proof.
  induction l as [|a l IH]; intros H; [reflexivity|]. rewrite sum_list_cons, H by (left; reflexivity).
  rewrite IH; [ring|]. intros b Hb. apply H. right; assumption.
Qed.
Lemma sum_list_const {A} (l : list A) c : sum_list l (fun _ => c) = INR (length l) * c.
Proof. induction l as [|a l IH]; [unfold sum_list; simpl; ring|]. rewrite sum_list_cons, IH. cbn [length]. rewrite S_INR. ring. Qed.
Lemma sum_list_nonneg {A} (l : list A) f : (forall a, In a l -> 0 <= f a) -> 0 <= sum_list l f.
Proof.
  induction l as [|a l IH]; intros H; [unfold sum_list; simpl; lra|]. rewrite sum_list_cons.
  pose proof (H a (or_introl eq_refl)). assert (0 <= sum_list l f) by (apply IH; intros; apply H; right; assumption). lra.
Qed.
Lemma sum_list_pos {A} (l : list A) f : l <> [] -> (forall a, In a l -> 0 < f a) -> 0 < sum_list l f.
Proof.
  destruct l as [|a l]; intros Hn H; [congruence|]. rewrite sum_list_cons.
  pose proof (H a (or_introl eq_refl)). assert (0 <= sum_list l f) by (apply sum_list_nonneg; intros b Hb; left; apply H; right; assumption). lra.
Qed.
Lemma sum_list_filter {A} (l : list A) p f : sum_list (filter p l) f = sum_list l (fun a => if p a then f a else 0).
Proof.
  induction l as [|a l IH]; [reflexivity|]. cbn [filter]. rewrite (sum_list_cons a l). rewrite <- IH.
  destruct (p a); [reflexivity|]. ring.
Qed.
Lemma sum_list_Perm {A} (l1 l2 : list A) f : Permutation.Permutation l1 l2 -> sum_list l1 f = sum_list l2 f.
Proof. induction 1; rewrite ?sum_list_cons in *; lra. Qed.
Lemma sum_list_same {A} (l1 l2 : list A) P f : enumerates l1 P -> enumerates l2 P -> sum_list l1 f = sum_list l2 f.
Proof.
  intros [N1 H1] [N2 H2]. apply sum_list_Perm. apply Permutation.NoDup_Permutation; auto.
  intros s. rewrite H1, H2. reflexivity.
Qed.
Lemma sum_list_del avail a f : NoDup avail -> In a avail -> sum_list (del avail a) f = sum_list avail f - f a.
Proof.
  intros Hn Ha. induction avail as [|b l IH]; [inversion Ha|]. inversion Hn; subst.
  rewrite del_filter. cbn [filter]. rewrite sum_list_cons. destruct (Nat.eqb_spec b a) as [->|Hb]; cbn [negb].
  - pose proof (del_notin l a H1) as E. rewrite del_filter in E. rewrite E. ring.
  - destruct Ha as [->|Ha]; [contradiction|]. rewrite sum_list_cons. rewrite <- del_filter, IH by auto. ring.
Qed.
Lemma sum_list_swap {A B} (l : list A) (m : list B) f : sum_list l (fun a => sum_list m (f a)) = sum_list m (fun b => sum_list l (fun a => f a b)).
Proof.
  induction l as [|a l IH].
  - symmetry. apply sum_list_zero. reflexivity.
  - rewrite sum_list_cons, IH, <- sum_list_plus. apply sum_list_ext. reflexivity.
Qed.
Lemma sum_list_single (l : list nat) a f : NoDup l -> In a l -> sum_list l (fun b => if Nat.eqb b a then f b else 0) = f a.
Proof.
  intros Hn Ha. induction l as [|b l IH]; [inversion Ha|]. inversion Hn; subst. rewrite sum_list_cons.
  destruct (Nat.eqb_spec b a) as [->|Hb].
  - rewrite sum_list_zero; [ring|]. intros c Hc. destruct (Nat.eqb_spec c a) as [->|]; [contradiction|reflexivity].
  - destruct Ha as [->|Ha]; [contradiction|]. rewrite IH by auto. ring.
Qed.

(** ** Softmax over the remaining actions *)

(** Weight of each action under a row of logits. *)
Definition wt (lg : list R) (a : nat) : R := exp (nth a lg 0).
Lemma wt_pos lg a : 0 < wt lg a. Proof. apply exp_pos. Qed.

Lemma index_of_lt avail a : In a avail -> (index_of avail a < length avail)%nat.
Proof.
  induction avail as [|b l IH]; intros H; [inversion H|]. cbn [index_of length].
  destruct (Nat.eqb_spec b a); [lia|]. destruct H as [->|H]; [contradiction|]. specialize (IH H). lia.
Qed.
Lemma index_of_nth avail a d : In a avail -> nth (index_of avail a) avail d = a.
Proof.
  induction avail as [|b l IH]; intros H; [inversion H|]. cbn [index_of].
  destruct (Nat.eqb_spec b a); [auto|]. destruct H as [->|H]; [contradiction|]. cbn [nth]. auto.
Qed.
Lemma index_of_unique avail k d : NoDup avail -> (k < length avail)%nat -> index_of avail (nth k avail d) = k.
Proof.
  intros Hn Hk. pose proof (nth_In avail d Hk) as Hin.
  apply (proj1 (NoDup_nth avail d) Hn); auto using index_of_lt. apply index_of_nth, Hin.
Qed.
Lemma where_first_in avail a : In a avail -> where_first avail (Z.of_nat a) = Ok (index_of avail a).
Proof.
  induction avail as [|b l IH]; intros H; [inversion H|]. cbn [index_of where_first].
  destruct (Nat.eqb_spec b a) as [->|Hb].
  - rewrite Z.eqb_refl. reflexivity.
  - rewrite (proj2 (Z.eqb_neq _ _)) by lia. destruct H as [->|H]; [contradiction|]. rewrite IH by auto. reflexivity.
Qed.
Lemma where_first_out avail a : (forall b, In b avail -> Z.of_nat b <> a) -> where_first avail a = Err IndexError.
Proof.
  induction avail as [|b l IH]; intros H; [reflexivity|]. cbn [where_first].
  rewrite (proj2 (Z.eqb_neq _ _)) by (apply H; left; reflexivity).
  rewrite IH; [reflexivity|]. intros c Hc. apply H. right; assumption.
Qed.

Lemma scores_nth lg avail k d : (k < length avail)%nat -> nth k (scores lg avail) 0 = wt lg (nth k avail d) / sum_list avail (wt lg).
Proof.
  intros Hk. unfold scores. rewrite softmax_row_nth by (rewrite map_length; exact Hk).
  f_equal.
  - unfold wt. f_equal. rewrite (nth_indep _ 0 (nth d lg 0)) by (rewrite map_length; exact Hk).
    apply (map_nth (fun a => nth a lg 0)).
  - unfold sum_list, Rsum. rewrite map_map. reflexivity.
Qed.
Lemma scores_index lg avail a : In a avail -> nth (index_of avail a) (scores lg avail) 0 = wt lg a / sum_list avail (wt lg).
Proof. intros H. rewrite (scores_nth lg avail _ 0%nat) by (apply index_of_lt, H). rewrite index_of_nth by exact H. reflexivity. Qed.
Lemma scores_length lg avail : length (scores lg avail) = length avail.
Proof. unfold scores. rewrite softmax_row_length, map_length. reflexivity. Qed.

(** Probability of the ranking [s] of actions still available. *)
Definition after (fact : bool) (avail : list nat) (a : nat) : list nat := if fact then avail else del avail a.
Fixpoint pl (fact : bool) (w : nat -> R) (avail : list nat) (s : list nat) : R :=
  match s with
  | [] => 1
  | a :: r => w a / sum_list avail w * pl fact w (after fact avail a) r
  end.
Fixpoint playable (fact : bool) (avail : list nat) (s : list nat) : Prop :=
  match s with [] => True | a :: r => In a avail /\ playable fact (after fact avail a) r end.

Lemma playable_iff fact avail s : playable fact avail s <-> (forall a, In a s -> In a avail) /\ (fact = false -> NoDup s).
Proof.
  revert avail. induction s as [|a s IH]; intros avail; cbn [playable].
  - split; [intros _|auto]. split; [intros a []|intros _; constructor].
  - rewrite IH. destruct fact; cbn [after].
    + split.
      * intros (H1 & H2 & _). split; [|easy]. intros b [<-|Hb]; auto.
      * intros (H & _). repeat split; try easy; intros; apply H; simpl; auto.
    + split.
      * intros (H1 & H2 & H3). split.
        -- intros b [<-|Hb]; auto. apply H2, In_del in Hb. tauto.
        -- intros _. constructor; auto. intros Hin. apply H2, In_del in Hin. tauto.
      * intros (H & H3). specialize (H3 eq_refl). inversion H3; subst. repeat split; auto.
        -- apply H. left; reflexivity.
        -- intros b Hb. apply In_del. split; [apply H; right; assumption|]. intros ->. contradiction.
Qed.

Lemma calc_logit_pl lg avail acc s : playable false avail s -> calc_logit lg avail acc s = acc * pl false (wt lg) avail s.
Proof.
  revert avail acc. induction s as [|a s IH]; intros avail acc H; cbn [calc_logit pl]; [ring|].
  destruct H as [Ha H]. cbn [after] in *. unfold del in *. rewrite IH by exact H. rewrite scores_index by exact Ha. ring.
Qed.
Lemma calc_softmax_pl ex avail acc s : playable false avail s -> calc_softmax ex avail acc s = acc * pl false (fun a => nth a ex 0) avail s.
Proof.
  revert avail acc. induction s as [|a s IH]; intros avail acc H; cbn [calc_softmax pl]; [ring|].
  destruct H as [Ha H]. cbn [after] in *. unfold del in *. rewrite IH by exact H.
  assert (E : nth (index_of avail a) (map (fun b => nth b ex 0) avail) 0 = nth a ex 0).
  { rewrite (nth_indep _ 0 (nth 0 ex 0)) by (rewrite map_length; apply index_of_lt, Ha).
    rewrite (map_nth (fun b => nth b ex 0)). rewrite index_of_nth by exact Ha. reflexivity. }
  rewrite E. unfold sum_list, Rsum. ring.
Qed.

Lemma pl_pos fact w avail s : (forall a, 0 < w a) -> playable fact avail s -> 0 < pl fact w avail s.
Proof.
  intros Hw. revert avail. induction s as [|a s IH]; intros avail H; cbn [pl]; [lra|]. destruct H as [Ha H].
  apply Rmult_lt_0_compat; [|apply IH, H]. apply Rdiv_lt_0_compat; auto. apply sum_list_pos; auto.
  intros E. rewrite E in Ha. inversion Ha.
Qed.
Lemma next_le_1 (w : nat -> R) (avail : list nat) a : (forall a, 0 < w a) -> In a avail -> 0 < w a / sum_list avail w <= 1.
Proof.
  intros Hw Ha.
  assert (P : 0 < sum_list avail w) by (apply sum_list_pos; auto; intros E; rewrite E in Ha; inversion Ha).
  split; [apply Rdiv_lt_0_compat; auto|]. apply (Rmult_le_reg_r (sum_list avail w)); auto.
  unfold Rdiv. rewrite Rmult_assoc, Rinv_l, Rmult_1_l, Rmult_1_r by lra.
  clear P. induction avail as [|b l IH]; [inversion Ha|]. rewrite sum_list_cons.
  assert (0 <= sum_list l w) by (apply sum_list_nonneg; intros; left; auto).
  destruct Ha as [->|Ha]; [lra|]. specialize (IH Ha). specialize (Hw b). lra.
Qed.

(** ** Enumerations *)
Definition choices (fact : bool) : list nat -> nat -> list (list nat) := if fact then prods else perms.
Lemma choices_S fact avail k : choices fact avail (S k) = flat_map (fun a => map (cons a) (choices fact (after fact avail a) k)) avail.
Proof. destruct fact; reflexivity. Qed.
Lemma choices_0 fact avail : choices fact avail 0 = [[]].
Proof. destruct fact; reflexivity. Qed.
Lemma choices_In fact avail k s : In s (choices fact avail k) <-> length s = k /\ playable fact avail s.
Proof.
  revert avail s. induction k as [|k IH]; intros avail s.
  - rewrite choices_0. cbn [In]. destruct s; simpl; [split; auto|split; [intros [H|[]]; discriminate H|intros [H _]; discriminate H]].
  - rewrite choices_S, in_flat_map. split.
    + intros (a & Ha & Hs). apply in_map_iff in Hs as (r & <- & Hr). apply IH in Hr as [Hl Hp]. cbn [length playable]. auto.
    + intros [Hl Hp]. destruct s as [|a r]; [discriminate|]. cbn [playable] in Hp. destruct Hp as [Ha Hp].
      exists a. split; auto. apply in_map. apply IH. auto.
Qed.
Lemma NoDup_after fact avail a : NoDup avail -> NoDup (after fact avail a).
Proof. intros H. destruct fact; cbn [after]; auto using NoDup_del. Qed.
Lemma NoDup_flat_cons (l : list nat) (f : nat -> list (list nat)) : NoDup l -> (forall a, In a l -> NoDup (f a)) -> NoDup (flat_map (fun a => map (cons a) (f a)) l).
Proof.
  induction l as [|a l IH]; intros Hn Hf; cbn [flat_map]; [constructor|]. inversion Hn; subst.
  assert (H : NoDup (flat_map (fun a => map (cons a) (f a)) l)) by (apply IH; auto; intros; apply Hf; right; assumption).
  assert (H0 : NoDup (map (cons a) (f a))) by (apply FinFun.Injective_map_NoDup; [intros x y E; congruence|apply Hf; left; reflexivity]).
  assert (Hd : forall x, In x (map (cons a) (f a)) -> ~ In x (flat_map (fun a => map (cons a) (f a)) l)).
  { intros x Hx Hy. apply in_map_iff in Hx as (r & <- & _). apply in_flat_map in Hy as (b & Hb & Hy).
    apply in_map_iff in Hy as (r' & E & _). congruence. }
  revert H0 Hd. generalize (map (cons a) (f a)) as m. induction m as [|x m IHm]; intros H0 Hd; cbn [app]; auto.
  inversion H0; subst. constructor.
  - rewrite in_app_iff. intros [Hx|Hx]; [contradiction|]. apply (Hd x); [left; reflexivity|exact Hx].
  - apply IHm; auto. intros y Hy. apply Hd. right; assumption.
Qed.
Lemma choices_NoDup fact avail k : NoDup avail -> NoDup (choices fact avail k).
Proof.
  revert avail. induction k as [|k IH]; intros avail H; [rewrite choices_0; constructor; [easy|constructor]|].
  rewrite choices_S. apply NoDup_flat_cons; auto. intros a _. apply IH, NoDup_after, H.
Qed.
Lemma choices_enumerate fact K L : enumerates (choices fact (seq 0 K) L) (slate_of fact K L).
Proof.
  split; [apply choices_NoDup, seq_NoDup|]. intros s. rewrite choices_In, playable_iff. unfold slate_of.
  split; intros (H1 & H2 & H3); repeat split; auto; intros a Ha; specialize (H2 a Ha); apply in_seq in H2 || apply in_seq; lia.
Qed.

(** Total probability of all continuations. *)
Definition enough (fact : bool) (avail : list nat) (k : nat) : Prop := if fact then avail <> [] else (k <= length avail)%nat.
Lemma enough_after fact avail k a : NoDup avail -> In a avail -> enough fact avail (S k) -> enough fact (after fact avail a) k.
Proof. intros Hn Ha H. destruct fact; cbn [after enough] in *; auto. rewrite del_length; auto. lia. Qed.
Lemma enough_nonempty fact avail k : enough fact avail (S k) -> avail <> [].
Proof. destruct fact; cbn [enough]; auto. intros H ->. simpl in H. lia. Qed.
Lemma pl_total fact w avail k : (forall a, 0 < w a) -> NoDup avail -> enough fact avail k -> sum_list (choices fact avail k) (pl fact w avail) = 1.
Proof.
  intros Hw. revert avail. induction k as [|k IH]; intros avail Hn He.
  - rewrite choices_0. unfold sum_list. simpl. ring.
  - rewrite choices_S, sum_list_flat_map.
    assert (P : 0 < sum_list avail w) by (apply sum_list_pos; eauto using enough_nonempty).
    transitivity (sum_list avail (fun a => / sum_list avail w * w a)).
    + apply sum_list_ext. intros a Ha. rewrite sum_list_map. cbn [pl]. rewrite sum_list_scal.
      rewrite IH; eauto using NoDup_after, enough_after. unfold Rdiv. ring.
    + rewrite sum_list_scal. apply Rinv_l. lra.
Qed.

(** Probability that slot [pos] shows [a]. *)
Definition shows (pos a : nat) (s : list nat) : bool := Nat.eqb (nth pos s 0%nat) a.
Definition at_slot (fact : bool) (w : nat -> R) (avail : list nat) (k pos a : nat) : R :=
  sum_list (choices fact avail k) (fun s => if shows pos a s then pl fact w avail s else 0).
Lemma at_slot_S fact w avail k pos a : at_slot fact w avail (S k) (S pos) a =
  sum_list avail (fun b => w b / sum_list avail w * at_slot fact w (after fact avail b) k pos a).
Proof.
  unfold at_slot. rewrite choices_S, sum_list_flat_map. apply sum_list_ext. intros b Hb.
  rewrite sum_list_map, <- sum_list_scal. apply sum_list_ext. intros s _. unfold shows. cbn [nth pl].
  destruct (Nat.eqb (nth pos s 0%nat) a); ring.
Qed.
Lemma at_slot_0 fact w avail k a : (forall a, 0 < w a) -> NoDup avail -> In a avail -> enough fact avail (S k) ->
  at_slot fact w avail (S k) 0 a = w a / sum_list avail w.
Proof.
  intros Hw Hn Ha He. unfold at_slot. rewrite choices_S, sum_list_flat_map.
  rewrite <- (sum_list_single avail a (fun a => w a / sum_list avail w)) by auto.
  apply sum_list_ext. intros b Hb. rewrite sum_list_map. unfold shows. cbn [nth pl].
  destruct (Nat.eqb_spec b a) as [->|Hne].
  - rewrite sum_list_scal, pl_total; eauto using NoDup_after, enough_after. ring.
  - apply sum_list_zero. reflexivity.
Qed.
Lemma at_slot_gone w avail k pos a : ~ In a avail -> (pos < k)%nat -> at_slot false w avail k pos a = 0.
Proof.
  intros Ha Hp. apply sum_list_zero. intros s Hs. apply choices_In in Hs as [Hl Hs].
  apply playable_iff in Hs as [Hs _]. unfold shows. destruct (Nat.eqb_spec (nth pos s 0%nat) a) as [E|]; [|reflexivity].
  exfalso. apply Ha. rewrite <- E. apply Hs, nth_In. lia.
Qed.
(** With equal weights every action is equally likely in every slot. *)
Lemma at_slot_uniform avail k pos a c : 0 < c -> NoDup avail -> In a avail -> (k <= length avail)%nat -> (pos < k)%nat ->
  at_slot false (fun _ => c) avail k pos a = 1 / INR (length avail).
Proof.
  intros Hc. revert avail k. induction pos as [|pos IH]; intros avail k Hn Ha Hk Hp; (destruct k as [|k]; [lia|]);
    assert (L0 : 0 < INR (length avail)) by (apply lt_0_INR; lia).
  - rewrite at_slot_0; auto. rewrite sum_list_const. field. lra.
  - rewrite at_slot_S. rewrite sum_list_const. cbn [after].
    assert (L1 : 0 < INR (length avail - 1)) by (apply lt_0_INR; lia).
    transitivity (sum_list avail (fun b => if Nat.eqb b a then 0 else 1 / INR (length avail) * (1 / INR (length avail - 1)))).
    + apply sum_list_ext. intros b Hb. destruct (Nat.eqb_spec b a) as [->|Hne].
      * rewrite at_slot_gone; [ring| |lia]. rewrite In_del. tauto.
      * rewrite IH; [|apply NoDup_del, Hn|apply In_del; auto|rewrite del_length; auto; lia|lia].
        rewrite del_length by auto. field. lra.
    + set (x := 1 / INR (length avail) * (1 / INR (length avail - 1))).
      assert (E : sum_list avail (fun _ : nat => x) = sum_list avail (fun b => if Nat.eqb b a then 0 else x) + sum_list avail (fun b => if Nat.eqb b a then x else 0)).
      { rewrite <- sum_list_plus. apply sum_list_ext. intros b _. destruct (Nat.eqb b a); ring. }
      rewrite (sum_list_single avail a (fun _ => x)), sum_list_const in E by auto.
      apply (Rplus_eq_reg_r x). rewrite <- E. unfold x. rewrite minus_INR in * by lia. simpl (INR 1) in *. field. lra.
Qed.

(** ** The actions left after a prefix *)
Definition left_after (fact : bool) (avail l : list nat) : list nat := fold_left (after fact) l avail.
Lemma left_after_filter fact avail l : left_after fact avail l = filter (fun b => orb fact (negb (existsb (Nat.eqb b) l))) avail.
Proof.
  unfold left_after. revert avail. induction l as [|a l IH]; intros avail.
  - cbn [fold_left existsb negb]. symmetry. rewrite orb_true_r. induction avail as [|b m IHm]; cbn [filter]; [reflexivity|congruence].
  - cbn [fold_left]. rewrite IH. destruct fact; cbn [after orb]; [reflexivity|]. rewrite del_filter.
    cbn [existsb]. induction avail as [|b m IHm]; [reflexivity|]. cbn [filter].
    destruct (Nat.eqb b a); cbn [negb orb filter]; [exact IHm|]. destruct (existsb (Nat.eqb b) l); cbn [negb]; [exact IHm|congruence].
Qed.
Lemma pl_snoc fact w avail s a : pl fact w avail (s ++ [a]) = pl fact w avail s * (w a / sum_list (left_after fact avail s) w).
Proof.
  revert avail. induction s as [|b s IH]; intros avail; cbn [app pl]; [unfold left_after; cbn [fold_left]; ring|].
  rewrite IH. unfold left_after. cbn [fold_left]. ring.
Qed.
Lemma forallb_firstn (s : list nat) j b : (j <= length s)%nat ->
  forallb (fun i => negb (Nat.eqb (nth i s 0%nat) b)) (seq 0 j) = negb (existsb (Nat.eqb b) (firstn j s)).
Proof.
  revert s. induction j as [|j IH]; intros s Hj; [reflexivity|]. destruct s as [|a s]; [simpl in Hj; lia|].
  cbn [firstn existsb]. rewrite <- cons_seq, <- seq_shift. cbn [forallb].
  rewrite negb_orb. change (nth 0 (a :: s) 0%nat) with a. rewrite (Nat.eqb_sym b a). f_equal.
  rewrite <- IH by (simpl in Hj; lia). clear. induction (seq 0 j) as [|x l IHl]; [reflexivity|]. cbn [map forallb]. rewrite IHl. reflexivity.
Qed.
Lemma left_after_may fact (s : list nat) j avail f : (j <= length s)%nat ->
  sum_list (left_after fact avail (firstn j s)) f = sum_list avail (fun b => if may_show fact (fun i => nth i s 0%nat) j b then f b else 0).
Proof.
  intros Hj. rewrite left_after_filter, sum_list_filter. apply sum_list_ext. intros b _.
  unfold may_show. rewrite forallb_firstn by exact Hj. reflexivity.
Qed.
Lemma sum_list_seq n f : sum_list (seq 0 n) f = sumn n f.
Proof. apply (sum_over_seq n f). Qed.
Lemma left_after_total fact (s : list nat) j K w : (j <= length s)%nat ->
  sum_list (left_after fact (seq 0 K) (firstn j s)) w = weight_below fact w (fun i => nth i s 0%nat) j K.
Proof. intros Hj. rewrite left_after_may by exact Hj. apply sum_list_seq. Qed.
Lemma firstn_snoc {A} (s : list A) k d : (k < length s)%nat -> firstn (S k) s = firstn k s ++ [nth k s d].
Proof.
  revert s. induction k as [|k IH]; intros s Hk; destruct s as [|a s]; try (simpl in Hk; lia); [reflexivity|].
  cbn [firstn app nth]. f_equal. apply IH. simpl in Hk. lia.
Qed.
Lemma pl_ranking fact K w s k : (k <= length s)%nat -> pl fact w (seq 0 K) (firstn k s) = ranking_prob fact K w (fun i => nth i s 0%nat) k.
Proof.
  induction k as [|k IH]; intros Hk; [reflexivity|].
  rewrite (firstn_snoc s k 0%nat), pl_snoc by lia. unfold ranking_prob in *. cbn [prodn]. rewrite IH by lia.
  unfold slot_prob at 2. rewrite left_after_total by lia. reflexivity.
Qed.
Lemma ranking_prob_ext fact K w s t k : (forall i, (i < k)%nat -> s i = t i) -> ranking_prob fact K w s k = ranking_prob fact K w t k.
Proof.
  intros H. unfold ranking_prob. assert (G : forall m, (m <= k)%nat -> prodn m (slot_prob fact K w s) = prodn m (slot_prob fact K w t)).
  { induction m as [|m IH]; intros Hm; [reflexivity|]. cbn [prodn]. rewrite IH by lia. f_equal.
    unfold slot_prob. rewrite H by lia. f_equal. unfold weight_below. apply sumn_ext. intros b _.
    unfold may_show. replace (forallb (fun i => negb (Nat.eqb (s i) b)) (seq 0 m)) with (forallb (fun i => negb (Nat.eqb (t i) b)) (seq 0 m)); [reflexivity|].
    assert (Q : forall l, (forall i, In i l -> (i < k)%nat) -> forallb (fun i => negb (Nat.eqb (t i) b)) l = forallb (fun i => negb (Nat.eqb (s i) b)) l).
    { induction l as [|x l IHl]; intros Hl; [reflexivity|]. cbn [forallb]. rewrite IHl by (intros; apply Hl; right; assumption).
      rewrite (H x) by (apply Hl; left; reflexivity). reflexivity. }
    apply Q. intros i Hi. apply in_seq in Hi. lia. }
  apply G. lia.
Qed.

Lemma playable_firstn fact avail s k : playable fact avail s -> playable fact avail (firstn k s).
Proof.
  revert avail k. induction s as [|a s IH]; intros avail k H; destruct k; cbn [firstn playable]; auto. destruct H; split; auto.
Qed.

(** Marginalising the later slots. *)
Lemma pl_completions fact w avail k p : (forall a, 0 < w a) -> NoDup avail -> enough fact avail k -> (length p <= k)%nat -> playable fact avail p ->
  sum_list (choices fact avail k) (fun s => if list_eq_dec Nat.eq_dec (firstn (length p) s) p then pl fact w avail s else 0) = pl fact w avail p.
Proof.
  intros Hw. revert avail k. induction p as [|a p IH]; intros avail k Hn He Hl Hp.
  - cbn [length firstn pl]. rewrite <- (pl_total fact w avail k Hw Hn He). apply sum_list_ext. intros s _.
    destruct (list_eq_dec Nat.eq_dec [] []); congruence.
  - destruct k as [|k]; [simpl in Hl; lia|]. destruct Hp as [Ha Hp]. rewrite choices_S, sum_list_flat_map. cbn [pl].
    rewrite <- (IH (after fact avail a) k); eauto using NoDup_after, enough_after; [|simpl in Hl; lia].
    rewrite <- sum_list_scal.
    rewrite <- (sum_list_single avail a (fun a => sum_list (choices fact (after fact avail a) k)
       (fun s => w a / sum_list avail w * (if list_eq_dec Nat.eq_dec (firstn (length p) s) p then pl fact w (after fact avail a) s else 0)))) by auto.
    apply sum_list_ext. intros b Hb. rewrite sum_list_map. destruct (Nat.eqb_spec b a) as [->|Hne].
    + apply sum_list_ext. intros s _. cbn [length firstn pl].
      destruct (list_eq_dec Nat.eq_dec (a :: firstn (length p) s) (a :: p)) as [E|E];
      destruct (list_eq_dec Nat.eq_dec (firstn (length p) s) p) as [F|F]; try congruence; ring.
    + apply sum_list_zero. intros s _. cbn [length firstn].
      destruct (list_eq_dec Nat.eq_dec (b :: firstn (length p) s) (a :: p)) as [E|E]; [congruence|reflexivity].
Qed.

(** With factorizable policies every slot has the same distribution. *)
Lemma at_slot_fact w avail k pos a : (forall a, 0 < w a) -> NoDup avail -> In a avail -> (pos < k)%nat ->
  at_slot true w avail k pos a = w a / sum_list avail w.
Proof.
  intros Hw Hn Ha. assert (Hne : avail <> []) by (intros E; rewrite E in Ha; inversion Ha).
  assert (P : 0 < sum_list avail w) by (apply sum_list_pos; auto).
  revert k. induction pos as [|pos IH]; intros k Hp; (destruct k as [|k]; [lia|]).
  - apply at_slot_0; auto.
  - rewrite at_slot_S. cbn [after]. rewrite IH by lia.
    transitivity (sum_list avail (fun b => w a / sum_list avail w / sum_list avail w * w b)).
    + apply sum_list_ext. intros b _. unfold Rdiv. ring.
    + rewrite sum_list_scal. field. lra.
Qed.

(** ** The propensity loop *)
Definition slot_out (fact : bool) (w : nat -> R) (avail0 : list nat) (item : nat -> Z -> R) (s : list nat) (j : nat) : R * R :=
  (pl fact w avail0 (firstn (S j) s),
   if Nat.eqb j 0 then pl fact w avail0 (firstn 1 s)
   else if fact then w (nth j s 0%nat) / sum_list avail0 w else item j (Z.of_nat (nth j s 0%nat))).

Lemma round_pscores_from fact lg item avail0 pre s :
  playable fact (left_after fact avail0 pre) s ->
  round_pscores fact lg item (length pre) (left_after fact avail0 pre) (pl fact (wt lg) avail0 pre) (map Z.of_nat s) =
  Ok (map (slot_out fact (wt lg) avail0 item (pre ++ s)) (seq (length pre) (length s))).
Proof.
  revert pre. induction s as [|a s IH]; intros pre H; [reflexivity|]. cbn [map round_pscores]. destruct H as [Ha H].
  rewrite where_first_in by exact Ha. cbn [bind]. rewrite scores_index by exact Ha.
  assert (E1 : pl fact (wt lg) avail0 pre * (wt lg a / sum_list (left_after fact avail0 pre) (wt lg)) = pl fact (wt lg) avail0 (pre ++ [a])) by (rewrite pl_snoc; reflexivity).
  rewrite E1.
  assert (E2 : left_after fact avail0 (pre ++ [a]) = after fact (left_after fact avail0 pre) a) by (unfold left_after; rewrite fold_left_app; reflexivity).
  assert (E3 : (if fact then left_after fact avail0 pre else delete_action (left_after fact avail0 pre) (Z.of_nat a)) = left_after fact avail0 (pre ++ [a])) by (rewrite E2; reflexivity).
  rewrite E3. assert (E4 : S (length pre) = length (pre ++ [a])) by (rewrite app_length; simpl; lia).
  rewrite E4. rewrite IH by (rewrite E2; exact H). cbn [bind length]. rewrite <- app_assoc. cbn [app].
  rewrite <- cons_seq. cbn [map]. rewrite <- E4. f_equal. f_equal.
  assert (F : firstn (S (length pre)) (pre ++ a :: s) = pre ++ [a]).
  { rewrite firstn_app. rewrite firstn_all2 by lia. replace (S (length pre) - length pre)%nat with 1%nat by lia. reflexivity. }
  assert (N : nth (length pre) (pre ++ a :: s) 0%nat = a) by (rewrite app_nth2 by lia; rewrite Nat.sub_diag; reflexivity).
  unfold slot_out. rewrite F, N. f_equal.
  destruct (Nat.eqb_spec (length pre) 0) as [E0|E0].
  - destruct pre; [reflexivity|discriminate].
  - destruct fact; [|reflexivity]. f_equal. f_equal. unfold left_after. clear.
    revert avail0. induction pre as [|x l IHl]; intros; [reflexivity|]. cbn [fold_left after]. apply IHl.
Qed.
Lemma round_pscores_ok fact lg item K s : playable fact (seq 0 K) s ->
  round_pscores fact lg item 0 (seq 0 K) 1 (map Z.of_nat s) = Ok (tab (length s) (slot_out fact (wt lg) (seq 0 K) item s)).
Proof. intros H. exact (round_pscores_from fact lg item (seq 0 K) [] s H). Qed.

(** A repeated or unknown action is an index error. *)
Lemma round_pscores_bad fact lg item K pos avail ps s :
  (exists j, (j < length s)%nat /\ (forall b, In b avail -> (b < K)%nat) /\
     ((forall b, (b < K)%nat -> Z.of_nat b <> nth j s 0%Z) \/ (fact = false /\ exists i, (i < j)%nat /\ nth i s 0%Z = nth j s 0%Z))) ->
  round_pscores fact lg item pos avail ps s = Err IndexError.
Proof.
  revert pos avail ps. induction s as [|a s IH]; intros pos avail ps (j & Hj & Hav & H); [simpl in Hj; lia|].
  cbn [round_pscores]. destruct j as [|j].
  - destruct H as [H|(_ & i & Hi & _)]; [|lia]. rewrite where_first_out; [reflexivity|]. intros b Hb. apply H, Hav, Hb.
  - destruct (where_first avail a) as [k|e] eqn:W.
    + cbn [bind]. assert (Hav' : forall b, In b (if fact then avail else delete_action avail a) -> (b < K)%nat).
      { intros b Hb. apply Hav. destruct fact; auto. apply filter_In in Hb. tauto. }
      destruct H as [H|(-> & i & Hi & E)].
      * rewrite IH; [reflexivity|]. exists j. split; [simpl in Hj; lia|]. split; auto.
      * destruct i as [|i].
        -- assert (G : forall l q p, (j < length l)%nat -> (forall b, In b q -> Z.of_nat b <> nth j l 0%Z) -> forall pos, round_pscores false lg item pos q p l = Err IndexError).
           { clear. revert j. intros j l. revert j. induction l as [|x l IHl]; intros j q p Hj Hq pos; [simpl in Hj; lia|].
             cbn [round_pscores]. destruct j as [|j]; [rewrite where_first_out; [reflexivity|exact Hq]|].
             destruct (where_first q x) as [k|e] eqn:W.
             - cbn [bind]. rewrite (IHl j); [reflexivity|simpl in Hj; lia|]. intros b Hb. apply filter_In in Hb. apply (Hq b). tauto.
             - cbn [bind]. f_equal. clear -W. revert e W. induction q as [|c q IHq]; intros e W; cbn [where_first] in W; [congruence|].
               destruct (Z.eqb (Z.of_nat c) x); [discriminate|]. destruct (where_first q x); cbn [bind] in W; [discriminate|]. apply IHq. congruence. }
           rewrite G; [reflexivity|simpl in Hj; lia|]. intros b Hb. unfold delete_action in Hb. apply filter_In in Hb as [_ Hb].
           apply negb_true_iff, Z.eqb_neq in Hb. cbn [nth] in E. congruence.
        -- rewrite IH; [reflexivity|]. exists j. split; [simpl in Hj; lia|]. split; auto. right. split; auto. exists i. split; [lia|exact E].
    + cbn [bind]. f_equal. clear -W. revert e W. induction avail as [|c q IHq]; intros e W; cbn [where_first] in W; [congruence|].
      destruct (Z.eqb (Z.of_nat c) a); [discriminate|]. destruct (where_first q a); cbn [bind] in W; [discriminate|]. apply IHq. congruence.
Qed.

(** ** Drawing one slot *)
Definition below (avail : list nat) (w : nat -> R) (a : nat) : R := sum_list avail (fun b => if Nat.ltb b a then w b else 0).
Lemma scores_map lg avail : avail <> [] -> scores lg avail = map (fun a => wt lg a / sum_list avail (wt lg)) avail.
Proof.
  intros H. apply (nth_ext _ _ 0 0).
  - rewrite scores_length, map_length. reflexivity.
  - intros k Hk. rewrite scores_length in Hk. rewrite (scores_nth lg avail k 0%nat) by exact Hk.
    rewrite (nth_indep _ 0 (wt lg 0%nat / sum_list avail (wt lg))) by (rewrite map_length; exact Hk).
    rewrite (map_nth (fun a => wt lg a / sum_list avail (wt lg))). reflexivity.
Qed.
Lemma sorted_below avail w k : StronglySorted lt avail -> (k < length avail)%nat -> sum_list (firstn k avail) w = below avail w (nth k avail 0%nat).
Proof.
  unfold below. revert k. induction avail as [|a l IH]; intros k Hs Hk; [simpl in Hk; lia|]. inversion Hs as [|? ? Hs' Hall]; subst.
  rewrite sum_list_cons. destruct k as [|k].
  - cbn [firstn nth]. rewrite Nat.ltb_irrefl. rewrite (sum_list_zero l); [unfold sum_list; simpl; ring|].
    intros b Hb. rewrite (proj2 (Nat.ltb_ge b a)); [reflexivity|]. rewrite List.Forall_forall in Hall. specialize (Hall b Hb). lia.
  - cbn [firstn nth]. rewrite sum_list_cons, IH by (auto; simpl in Hk; lia).
    rewrite (proj2 (Nat.ltb_lt a _)); [reflexivity|]. rewrite List.Forall_forall in Hall. apply Hall, nth_In. simpl in Hk; lia.
Qed.
Lemma draw_iff lg avail u : StronglySorted lt avail -> avail <> [] -> 0 <= u < 1 ->
  let a := nth (sample_action_row (scores lg avail) u) avail 0%nat in
  let T := sum_list avail (wt lg) in
  In a avail /\ index_of avail a = sample_action_row (scores lg avail) u /\
  forall t, In t avail -> (a = t <-> below avail (wt lg) t / T <= u < (below avail (wt lg) t + wt lg t) / T).
Proof.
  intros Hs Hne Hu a T.
  assert (Hn : NoDup avail).
  { clear -Hs. induction Hs as [|b l Hs IH Hall]; constructor; auto. intros Hin. rewrite List.Forall_forall in Hall. specialize (Hall b Hin). lia. }
  assert (HT : 0 < T) by (apply sum_list_pos; auto using wt_pos).
  assert (Hpos : forall v, In v (scores lg avail) -> 0 <= v).
  { intros v Hv. unfold scores in Hv. left. apply (softmax_row_pos _ _ Hv). }
  assert (Hsum : Rsum (scores lg avail) = 1).
  { unfold scores. apply softmax_row_sum. destruct avail; [congruence|discriminate]. }
  assert (Hfirst : forall k, (k < length avail)%nat -> Rsum (firstn k (scores lg avail)) = below avail (wt lg) (nth k avail 0%nat) / T).
  { intros k Hk. rewrite scores_map by exact Hne. rewrite firstn_map. rewrite <- sorted_below by auto.
    change (Rsum (map ?g ?l)) with (sum_list l g).
    rewrite (sum_list_ext _ _ (fun b => / T * wt lg b)) by (intros; unfold T, Rdiv; ring).
    rewrite sum_list_scal. unfold Rdiv. ring. }
  assert (Hnext : forall k, (k < length avail)%nat -> Rsum (firstn (S k) (scores lg avail)) = (below avail (wt lg) (nth k avail 0%nat) + wt lg (nth k avail 0%nat)) / T).
  { intros k Hk. rewrite firstn_S_sum by (rewrite scores_length; exact Hk). rewrite Hfirst by exact Hk.
    rewrite (scores_nth lg avail k 0%nat) by exact Hk. fold T. field. lra. }
  destruct (sample_row_spec (scores lg avail) u Hpos) as (H1 & H2 & _); [rewrite Hsum; exact Hu|].
  rewrite scores_length in H1. split; [apply nth_In, H1|]. split; [apply index_of_unique; auto|].
  intros t Ht. pose proof (index_of_lt avail t Ht) as Hk. pose proof (index_of_nth avail t 0%nat Ht) as Ek. split.
  - intros <-. rewrite Hfirst, Hnext in H2 by exact H1. exact H2.
  - intros H. rewrite <- Ek in H. rewrite <- Hfirst, <- Hnext in H by exact Hk.
    unfold a. rewrite (sample_row_char (scores lg avail) u (index_of avail t)); [exact Ek|exact Hpos|apply Hu|rewrite scores_length; exact Hk|exact H].
Qed.

Lemma sorted_filter (p : nat -> bool) l : StronglySorted lt l -> StronglySorted lt (filter p l).
Proof.
  induction 1 as [|a l Hs IH Hall]; cbn [filter]; [constructor|]. destruct (p a); auto. constructor; auto.
  rewrite List.Forall_forall in *. intros x Hx. apply filter_In in Hx. apply Hall. tauto.
Qed.
Lemma sorted_seq n m : StronglySorted lt (seq n m).
Proof.
  revert n. induction m as [|m IH]; intros n; cbn [seq]; constructor; auto. apply List.Forall_forall. intros x Hx. apply in_seq in Hx. lia.
Qed.
Lemma sorted_left fact avail l : StronglySorted lt avail -> StronglySorted lt (left_after fact avail l).
Proof. intros H. rewrite left_after_filter. apply sorted_filter, H. Qed.

Definition slot_sampled (fact unif : bool) (K : nat) (w : nat -> R) (avail0 : list nat) (item : nat -> Z -> R) (s : list nat) (j : nat) : nat * (R * R) :=
  (nth j s 0%nat, (pl fact w avail0 (firstn (S j) s),
    if unif then 1 / INR K
    else if fact then w (nth j s 0%nat) / sum_list avail0 w
    else if Nat.eqb j 0 then pl fact w avail0 (firstn 1 s) else item j (Z.of_nat (nth j s 0%nat)))).
(** The interval of uniform numbers for which slot [j] shows [s j]. *)
Definition in_slot (fact : bool) (w : nat -> R) (avail0 s : list nat) (j : nat) (u : R) : Prop :=
  let av := left_after fact avail0 (firstn j s) in
  below av w (nth j s 0%nat) / sum_list av w <= u < (below av w (nth j s 0%nat) + w (nth j s 0%nat)) / sum_list av w.

Lemma sample_round_from fact unif K lg item avail0 pre us :
  StronglySorted lt avail0 -> NoDup avail0 -> (forall u, In u us -> 0 <= u < 1) -> enough fact (left_after fact avail0 pre) (length us) ->
  exists s, length s = length us /\ playable fact (left_after fact avail0 pre) s /\
    sample_round fact unif K lg item (length pre) (left_after fact avail0 pre) (pl fact (wt lg) avail0 pre) us =
      map (slot_sampled fact unif K (wt lg) avail0 item (pre ++ s)) (seq (length pre) (length us)) /\
    (forall t, length t = length us -> playable fact (left_after fact avail0 pre) t ->
       (s = t <-> forall j, (j < length us)%nat -> in_slot fact (wt lg) avail0 (pre ++ t) (length pre + j) (nth j us 0))).
Proof.
  intros Hs Hnd. revert pre. induction us as [|u us IH]; intros pre Hu He.
  - exists []. split; [reflexivity|]. split; [exact I|]. split; [reflexivity|]. intros t Ht _. destruct t; [|discriminate].
    split; auto. intros _ j Hj. simpl in Hj. lia.
  - cbn [length] in He. pose proof (enough_nonempty _ _ _ He) as Hne.
    pose proof (sorted_left fact avail0 pre Hs) as Hsl.
    assert (Hnl : NoDup (left_after fact avail0 pre)) by (rewrite left_after_filter; apply NoDup_filter, Hnd).
    destruct (draw_iff lg _ u Hsl Hne (Hu u (or_introl eq_refl))) as (Ha & Hidx & Hd). cbn [sample_round].
    set (a := nth (sample_action_row (scores lg (left_after fact avail0 pre)) u) (left_after fact avail0 pre) 0%nat) in *.
    assert (E2 : left_after fact avail0 (pre ++ [a]) = after fact (left_after fact avail0 pre) a) by (unfold left_after; rewrite fold_left_app; reflexivity).
    assert (E3 : (if fact then left_after fact avail0 pre else delete_action (left_after fact avail0 pre) (Z.of_nat a)) = left_after fact avail0 (pre ++ [a])) by (rewrite E2; reflexivity).
    destruct (IH (pre ++ [a])) as (s & Hl & Hp & Er & Hd').
    { intros v Hv. apply Hu. right; assumption. }
    { rewrite E2. apply enough_after; auto. }
    exists (a :: s). split; [cbn [length]; congruence|]. split; [cbn [playable]; rewrite <- E2; auto|].
    assert (Elen : length (pre ++ [a]) = S (length pre)) by (rewrite app_length; simpl; lia).
    assert (Eapp : forall b l, (pre ++ [b]) ++ l = pre ++ b :: l) by (intros b l; rewrite <- app_assoc; reflexivity).
    assert (F : forall b l, firstn (length pre) (pre ++ b :: l) = pre) by (intros b l; rewrite firstn_app, Nat.sub_diag, firstn_all, app_nil_r; reflexivity).
    assert (N : forall b l, nth (length pre) (pre ++ b :: l) 0%nat = b) by (intros b l; rewrite app_nth2 by lia; rewrite Nat.sub_diag; reflexivity).
    split.
    + rewrite E3, scores_index by exact Ha.
      assert (E1 : pl fact (wt lg) avail0 pre * (wt lg a / sum_list (left_after fact avail0 pre) (wt lg)) = pl fact (wt lg) avail0 (pre ++ [a])) by (rewrite pl_snoc; reflexivity).
      rewrite E1, <- Elen, Er, Eapp, Elen. cbn [length]. rewrite <- cons_seq. cbn [map]. f_equal.
      unfold slot_sampled. rewrite N. rewrite (firstn_snoc _ _ 0%nat) by (rewrite app_length; simpl; lia). rewrite F, N. f_equal. f_equal.
      destruct unif; [reflexivity|]. destruct fact.
      * f_equal. f_equal. unfold left_after. clear. revert avail0. induction pre as [|x l IHl]; intros; [reflexivity|]. cbn [fold_left after]. apply IHl.
      * destruct (Nat.eqb_spec (length pre) 0) as [E0|E0]; [|reflexivity]. destruct pre; [reflexivity|discriminate].
    + intros t Ht Hpt. destruct t as [|b t]; [discriminate|]. cbn [playable] in Hpt. destruct Hpt as [Hb Hpt].
      assert (I0 : in_slot fact (wt lg) avail0 (pre ++ b :: t) (length pre + 0) u <-> a = b).
      { rewrite Nat.add_0_r. unfold in_slot. rewrite F, N. cbv zeta. rewrite (Hd b Hb). reflexivity. }
      split.
      * intros E. injection E as E1 E2'. intros j Hj. destruct j as [|j]; [cbn [nth]; apply I0; exact E1|].
        cbn [nth]. replace (length pre + S j)%nat with (length (pre ++ [a]) + j)%nat by (rewrite Elen; lia). rewrite <- Eapp, <- E1.
        apply (proj1 (Hd' t ltac:(simpl in Ht; lia) ltac:(rewrite E2; rewrite E1; exact Hpt)) E2'). simpl in Hj; lia.
      * intros H. assert (E1 : a = b) by (apply I0; apply (H 0%nat); simpl; lia). subst b. f_equal.
        apply Hd'; [simpl in Ht; lia|rewrite E2; exact Hpt|]. intros j Hj. rewrite Eapp, Elen.
        replace (S (length pre) + j)%nat with (length pre + S j)%nat by lia. apply (H (S j)). simpl; lia.
Qed.
Lemma below_weight fact K w (s : list nat) j : (j < length s)%nat -> (nth j s 0%nat < K)%nat ->
  below (left_after fact (seq 0 K) (firstn j s)) w (nth j s 0%nat) = weight_below fact w (fun i => nth i s 0%nat) j (nth j s 0%nat).
Proof.
  intros Hj HK. unfold below. rewrite left_after_may by lia. rewrite sum_list_seq. unfold weight_below.
  set (a := nth j s 0%nat) in *. replace K with (a + (K - a))%nat by lia. rewrite sumn_app.
  rewrite (sumn_zero (K - a)).
  - rewrite Rplus_0_r. apply sumn_ext. intros b Hb. rewrite (proj2 (Nat.ltb_lt b a)) by lia. reflexivity.
  - intros b Hb. rewrite (proj2 (Nat.ltb_ge (a + b) a)) by lia. destruct (may_show _ _ _ _); reflexivity.
Qed.
