(** * L_SlateReg: lemmas about the slate reward model (M_Reg). *)

From Coq Require Import Reals List ZArith Lia Lra Bool.
From Verif Require Import Num NpList M_Utils M_Slate M_Offline M_Reg S_Base S_SlateReg L_Num L_Base L_Utils L_Slate L_Multi L_Offline L_Reg.
Import ListNotations.
Open Scope R_scope.

Lemma concat_length {A} (ls : list (list A)) k : (forall l, In l ls -> length l = k) -> length (concat ls) = (length ls * k)%nat.
Proof. induction ls; intros H; simpl; auto. rewrite app_length, IHls by (intros; apply H; right; auto). rewrite (H a) by (left; auto). lia. Qed.

Lemma chunk {A} (ls : list (list A)) k i : (forall l, In l ls -> length l = k) -> (i < length ls)%nat ->
  firstn k (skipn (i * k) (concat ls)) = nth i ls [].
Proof.
  revert i. induction ls as [|l ls IH]; intros i H Hi; [simpl in Hi; lia|]. assert (Hl : length l = k) by (apply H; left; auto).
  destruct i.
  - simpl. rewrite <- Hl. rewrite firstn_app, Nat.sub_diag, firstn_all. simpl. apply app_nil_r.
  - cbn [nth concat]. rewrite <- IH by (try (intros; apply H; right; auto); simpl in Hi; lia).
    replace (S i * k)%nat with (length l + i * k)%nat by (rewrite Hl; lia). f_equal.
    rewrite skipn_app. replace (length l + i * k - length l)%nat with (i * k)%nat by lia. rewrite skipn_all2 by lia. reflexivity.
Qed.

Lemma reshape_concat {A} (ls : list (list A)) k : (0 < k)%nat -> (forall l, In l ls -> length l = k) -> reshape k (concat ls) = Ok ls.
Proof.
  intros Hk H. unfold reshape. rewrite (concat_length ls k H), Nat.mod_mul, Nat.div_mul by lia.
  replace (Nat.eqb k 0) with false by (symmetry; apply Nat.eqb_neq; lia). cbn [orb negb Nat.eqb]. f_equal.
  rewrite (list_tab ls []) at 2. unfold tab. apply map_ext_in. intros i Hi. apply in_seq in Hi. apply chunk; auto. lia.
Qed.

Lemma reshape_flat {A} n L (g : nat -> nat -> A) : (0 < L)%nat -> reshape L (flat n L g) = Ok (tab n (fun i => tab L (g i))).
Proof. intros H. apply reshape_concat; auto. intros l Hl. apply In_tab in Hl as (i & _ & <-). apply tab_length. Qed.

Lemma flat3_flat {A} n L K (g : nat -> nat -> nat -> A) : flat3 n L K g = concat (flat n L (fun i p => tab K (g i p))).
Proof. unfold flat3, flat, tab. induction (seq 0 n); simpl; auto. rewrite concat_app. f_equal. auto. Qed.

Lemma reshape_flat3 {A} n L K (g : nat -> nat -> nat -> A) : (0 < K)%nat -> reshape K (flat3 n L K g) = Ok (flat n L (fun i p => tab K (g i p))).
Proof.
  intros H. rewrite flat3_flat. apply reshape_concat; auto. intros l Hl. apply in_concat in Hl as (b & Hb & Hl). apply In_tab in Hb as (i & _ & <-).
  apply In_tab in Hl as (p & _ & <-). apply tab_length.
Qed.

Lemma flat_length {A} n L (g : nat -> nat -> A) : length (flat n L g) = (n * L)%nat.
Proof. unfold flat. rewrite (concat_length _ L), tab_length; auto. intros l Hl. apply In_tab in Hl as (i & _ & <-). apply tab_length. Qed.
Lemma flat3_length {A} n L K (g : nat -> nat -> nat -> A) : length (flat3 n L K g) = (n * L * K)%nat.
Proof.
  rewrite flat3_flat, (concat_length _ K), flat_length; auto. intros l Hl. apply in_concat in Hl as (b & Hb & Hl). apply In_tab in Hb as (i & _ & <-).
  apply In_tab in Hl as (p & _ & <-). apply tab_length.
Qed.
Lemma In_flat {A} n L (g : nat -> nat -> A) z : In z (flat n L g) -> exists i p, (i < n)%nat /\ (p < L)%nat /\ z = g i p.
Proof.
  intros H. apply in_concat in H as (b & Hb & H). apply In_tab in Hb as (i & Hi & <-). apply In_tab in H as (p & Hp & <-). eauto.
Qed.
Lemma map_flat {A B} (h : A -> B) n L g : map h (flat n L g) = flat n L (fun i p => h (g i p)).
Proof. unfold flat. rewrite concat_map, map_tab. f_equal. apply tab_ext. intros. apply map_tab. Qed.

Lemma bcast2_flat {A B D} (op : A -> B -> D) n L f g : bcast2 op (flat n L f) (flat n L g) = Ok (flat n L (fun i p => op (f i p) (g i p))).
Proof.
  unfold bcast2. rewrite !flat_length, Nat.eqb_refl. f_equal. unfold flat, tab. induction (seq 0 n) as [|i is IH]; simpl; auto.
  assert (C : forall (a1 : list A) b1 a2 b2, length a1 = length b1 -> combine (a1 ++ a2) (b1 ++ b2) = combine a1 b1 ++ combine a2 (b2 : list B)).
  { induction a1; intros [|]; simpl; intros; try discriminate; auto. f_equal. auto. }
  rewrite C by (rewrite !map_length; auto). rewrite map_app, IH. f_equal.
  clear IH. induction (seq 0 L) as [|p ps IHp]; simpl; auto. f_equal. exact IHp.
Qed.

Lemma nth_error_set_same {A} (l : list A) i v : (i < length l)%nat -> nth_error (set_nth l i v) i = Some v.
Proof. revert i. induction l; intros [|i]; simpl; intros; try lia; auto. apply IHl. lia. Qed.
Lemma nth_error_set_other {A} (l : list A) i j v : j <> i -> nth_error (set_nth l i v) j = nth_error l j.
Proof. revert i j. induction l; intros [|i] [|j]; simpl; intros; auto; try lia; try congruence. Qed.
Lemma nth_error_ext {A} (a b : list A) : (forall i, nth_error a i = nth_error b i) -> a = b.
Proof.
  revert b. induction a as [|x a IH]; intros [|y b] H; auto; try (specialize (H 0%nat); discriminate).
  pose proof (H 0%nat) as E. injection E as ->. f_equal. apply IH. intros i. apply (H (S i)).
Qed.

Lemma firstn_tab {A} m k (g : nat -> A) : (k <= m)%nat -> firstn k (tab m g) = tab k g.
Proof.
  intros H. unfold tab. rewrite firstn_map. f_equal. replace m with (k + (m - k))%nat by lia. rewrite seq_app, firstn_app, seq_length, Nat.sub_diag.
  rewrite firstn_all2 by (rewrite seq_length; lia). simpl. apply app_nil_r.
Qed.

Section SlateReg.
Context {M : Type}.
Variable rfit : M -> list (list num) -> list num -> list num -> res M.
Variable rpred : M -> list (list num) -> res (list num).
Variable train : list (list num) -> list R -> list R -> M.
Variable f : M -> list num -> R.
Hypothesis HP : plain_regressor rfit rpred train f.
Variables (K L : nat) (l : slog).
Hypothesis Hl : slog_ok K L l.
Let n := sg_n l.

Lemma K_pos : (0 < K)%nat.
Proof. pose proof (go_a _ _ _ Hl 0%nat 0%nat (go_n _ _ _ Hl) (go_L _ _ _ Hl)). lia. Qed.

Lemma slate_check_ok : slate_check K L (tab n (sg_x l)) (flat n L (fun i p => Z.of_nat (sg_a l i p))) (flat n L (fun i p => Fin (sg_r l i p)))
  (flat n L (fun i p => Fin (sg_p l i p))) (flat n L (fun i p => Fin (sg_pe l i p))) (flat3 n L K (fun i p a => Fin (sg_pi l i p a))) = Ok tt.
Proof.
  pose proof (go_n _ _ _ Hl) as Hn. pose proof (go_L _ _ _ Hl) as HL. pose proof K_pos as HK. fold n in Hn.
  unfold slate_check. rewrite tab_length, !flat_length, flat3_length, !Nat.eqb_refl. cbn [andb negb raise_if bind].
  assert (NE : flat n L (fun i p => Z.of_nat (sg_a l i p)) <> []).
  { intros E. apply (f_equal (@length Z)) in E. rewrite flat_length in E. simpl in E. nia. }
  generalize (zminl_spec (flat n L (fun i p => Z.of_nat (sg_a l i p)))) (zmaxl_spec (flat n L (fun i p => Z.of_nat (sg_a l i p)))).
  destruct (zminl _) as [lo|e]; [|intros [E _]; contradiction]. intros (_ & Hlo & _). cbn [bind].
  apply In_flat in Hlo as (i1 & p1 & _ & _ & ->). rewrite (proj2 (Z.ltb_ge _ _)) by lia. cbn [raise_if bind].
  destruct (zmaxl _) as [hi|e]; [|intros [E _]; contradiction]. intros (_ & Hhi & _). cbn [bind].
  apply In_flat in Hhi as (i2 & p2 & Hi2 & Hp2 & ->). pose proof (go_a _ _ _ Hl i2 p2 Hi2 Hp2). rewrite (proj2 (Z.leb_gt _ _)) by lia. cbn [raise_if bind].
  assert (X : forall g, (forall i p, (i < n)%nat -> (p < L)%nat -> 0 < g i p <= 1) ->
     existsb (fun p => (nle p (Fin 0) || nlt (Fin 1) p)%bool) (flat n L (fun i p => Fin (g i p))) = false).
  { intros g Hg. apply not_true_is_false. rewrite existsb_exists. intros (z & Hz & E). apply In_flat in Hz as (i & p & Hi & Hp & ->).
    specialize (Hg i p Hi Hp). cbn in E. apply orb_prop in E as [E|E]; revert E; rdec; intros; try discriminate; lra. }
  rewrite !X by apply Hl. cbn [raise_if bind]. rewrite reshape_flat3 by auto. cbn [bind].
  replace (allclose_ones _) with true; [reflexivity|]. symmetry. unfold allclose_ones. rewrite map_flat. apply forallb_forall.
  intros z Hz. apply In_flat in Hz as (i & p & Hi & Hp & ->). change (tab K (fun a => Fin (sg_pi l i p a))) with (tabF K (sg_pi l i p)).
  rewrite nsum_tabF, (go_pi _ _ _ Hl) by auto. apply Rleb_true. rewrite Rminus_diag_eq by auto. rewrite Rabs_R0, Rabs_R1. lra.
Qed.

Lemma candidates (g : nat -> nat -> nat) k :
  candidate_rows K (tab n (sg_x l)) (tab n (fun i => tab k (fun p => Z.of_nat (g i p)))) =
  concat (tab n (fun i => tab K (fun b => prefix_row (sg_x l i) (tab k (g i) ++ [b])))).
Proof.
  unfold candidate_rows. rewrite combine_tab. rewrite flat_map_concat_map, map_tab. f_equal. apply tab_ext. intros i _.
  cbn [fst snd]. change (map ?h (seq 0 K)) with (tab K h). apply tab_ext. intros b _. unfold prefix_row. f_equal. rewrite !map_app. cbn [map]. f_equal.
  - rewrite !map_tab. apply tab_ext. intros p _. rewrite INR_IZR_INZ. reflexivity.
  - rewrite INR_IZR_INZ. reflexivity.
Qed.

Lemma targets_ok (md : nat -> M) p : (p < L)%nat ->
  forall models, (forall q, (p < q < L)%nat -> nth_error models q = Some (md q)) ->
  slate_targets rpred K L models (tab n (sg_x l)) (tab n (fun i => tab L (fun p => Z.of_nat (sg_a l i p))))
    (tab n (fun i => tab L (fun p => Fin (sg_r l i p)))) (flat3 n L K (fun i p a => Fin (sg_pi l i p a))) p =
  Ok (tab n (fun i => prefix_row (sg_x l i) (before l i (S p))), tabF n (target f K L l md p)).
Proof.
  intros Hp models Hmod. destruct HP as [_ Hpr]. pose proof (go_L _ _ _ Hl) as HL. pose proof K_pos as HK.
  unfold slate_targets. cbv zeta.
  rewrite (mapM_tab n _ _ (fun i => Fin (sg_r l i p))) by (intros i Hi; apply (np_get_tab L (fun p => Fin (sg_r l i p))); auto). cbn [bind].
  replace (map (firstn (S p)) (tab n (fun i => tab L (fun p => Z.of_nat (sg_a l i p))))) with (tab n (fun i => tab (S p) (fun p => Z.of_nat (sg_a l i p)))).
  2:{ rewrite map_tab. apply tab_ext. intros i _. symmetry. apply firstn_tab. lia. }
  rewrite combine_tab, map_tab. cbn [fst snd].
  assert (EX : tab n (fun i => sg_x l i ++ map (fun z => Fin (IZR z)) (tab (S p) (fun p => Z.of_nat (sg_a l i p)))) =
               tab n (fun i => prefix_row (sg_x l i) (before l i (S p)))).
  { apply tab_ext. intros i _. unfold prefix_row, before. f_equal. rewrite !map_tab. apply tab_ext. intros q _. rewrite INR_IZR_INZ. reflexivity. }
  rewrite EX. clear EX. unfold target. destruct (Nat.eqb_spec (S p) L) as [E|E].
  - rewrite tab_length, repeat_tab. cbn [bind]. rewrite bcast2_tab. cbn [bind]. reflexivity.
  - rewrite reshape_flat3 by auto. cbn [bind]. rewrite reshape_flat by auto. cbn [bind].
    rewrite (mapM_tab n _ _ (fun i => tab K (fun a => Fin (sg_pi l i (S p) a)))) by (intros i Hi; apply (np_get_tab L (fun p => tab K (fun a => Fin (sg_pi l i p a)))); lia). cbn [bind].
    unfold nth_model. rewrite Hmod by lia. cbn [bind]. rewrite candidates, Hpr. cbn [bind].
    change (concat (tab n (fun i => tab K (fun a => Fin (sg_pi l i (S p) a))))) with (flat n K (fun i a => Fin (sg_pi l i (S p) a))).
    change (concat (tab n (fun i => tab K (fun b => prefix_row (sg_x l i) (tab (S p) (sg_a l i) ++ [b]))))) with
      (flat n K (fun i b => prefix_row (sg_x l i) (before l i (S p) ++ [b]))). rewrite map_flat, bcast2_flat. cbn [bind].
    rewrite reshape_flat by auto. cbn [bind]. rewrite map_tab, bcast2_tab. cbn [bind]. unfold tabF. do 2 f_equal. apply tab_ext. intros i _.
    change (tab K (fun p0 => nmul (Fin (sg_pi l i (S p) p0)) (Fin (f (md (S p)) (prefix_row (sg_x l i) (before l i (S p) ++ [p0])))))) with
      (tabF K (fun b => sg_pi l i (S p) b * f (md (S p)) (prefix_row (sg_x l i) (before l i (S p) ++ [b])))).
    rewrite nsum_tabF. reflexivity.
Qed.
End SlateReg.
