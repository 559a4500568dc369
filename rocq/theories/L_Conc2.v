(** * L_Conc2: Bernstein's inequality and the lower tail of the sample variance. *)

From Coq Require Import Reals List ZArith Bool Lia Lra Permutation FunctionalExtensionality.
From Coquelicot Require Import Coquelicot.
From Verif Require Import Num NpList S_Base S_Prob S_Conc S_Tuning L_Base L_Prob L_Conc.
Import ListNotations.
Open Scope R_scope.

Lemma exp_le x y : x <= y -> exp x <= exp y.
Proof. intros [H| ->]; [left; apply exp_increasing; auto|lra]. Qed.

Lemma var_nonneg d : is_dist d -> 0 <= var d.
Proof. intros Hd. apply expect_pos; auto. intros. apply Rle_0_sqr. Qed.

Lemma centered d : is_dist d -> expect d (fun x => x - mean d) = 0.
Proof. intros Hd. rewrite expect_minus, (expect_const d _ Hd). unfold mean. lra. Qed.

Lemma mgf_bernstein d b s : is_dist d -> 0 < b -> within d 0 b -> 0 <= s -> s * b < 3 ->
  expect d (fun x => exp (s * (x - mean d) - s * s * var d / (2 * (1 - s * b / 3)))) <= 1.
Proof.
  intros Hd Hb Hw Hs Hsb. set (m := mean d). set (v := var d). set (k := 2 * (1 - s * b / 3)).
  assert (Hk : 0 < k) by (unfold k; lra). pose proof (mean_within d 0 b Hd Hw) as Hm. fold m in Hm.
  assert (Hsb0 : 0 <= s * b) by (apply Rmult_le_pos; lra).
  apply (Rle_trans _ (expect d (fun x => (1 + s * (x - m) + s * (x - m) * (s * (x - m)) / k) * exp (- (s * s * v / k))))).
  - apply expect_le_supp; auto. intros x p Hx Hp. destruct (Hw x p Hx Hp) as [H1 H2].
    unfold Rminus at 1. rewrite exp_plus. apply Rmult_le_compat_r; [left; apply exp_pos|].
    apply exp_bernstein; [|lra]. apply Rmult_le_compat_l; lra.
  - rewrite expect_scal_r.
    replace (expect d (fun x => 1 + s * (x - m) + s * (x - m) * (s * (x - m)) / k)) with (1 + s * s * v / k).
    2:{ rewrite !expect_plus, (expect_const d 1 Hd), expect_scal. fold m. unfold m. rewrite centered by auto. fold m.
        rewrite (expect_ext_all d (fun x => s * (x - m) * (s * (x - m)) / k) (fun x => (s * s / k) * ((x - m) * (x - m)))) by (intros; field; lra).
        rewrite expect_scal. unfold v, var. fold m. field. lra. }
    apply (Rle_trans _ (exp (s * s * v / k) * exp (- (s * s * v / k)))).
    + apply Rmult_le_compat_r; [left; apply exp_pos|]. apply exp_ge_1.
    + rewrite <- exp_plus, Rplus_opp_r, exp_0. lra.
Qed.

(** Bernstein's inequality in the form "with probability at least 1 - exp(-L) the average exceeds the mean by at most
    sqrt(2 v L / n) + b L / (3 n)"; [A] stands for sqrt(2 L / (n v)). *)
Lemma bernstein n d b A L : (0 < n)%nat -> is_dist d -> 0 < b -> within d 0 b -> 0 <= A -> A * A * (INR n * var d) = 2 * L ->
  prob (dprod n (fun _ => d)) (fun o => if Rlt_dec (mean d + (var d * A + b / 3 * L / INR n)) (avg n (fun i => nth i o 0)) then true else false)
  <= exp (- L).
Proof.
  intros Hn Hd Hb Hw HA HL. assert (HN : 0 < INR n) by (apply lt_0_INR; auto).
  assert (HD : is_dist (dprod n (fun _ => d))) by (apply is_dist_dprod; auto).
  set (c := b / 3) in *. assert (Hc : 0 < c) by (unfold c; lra). set (v := var d) in *. pose proof (var_nonneg d Hd) as Hv. fold v in Hv.
  set (s := A / (1 + c * A)). assert (Hden : 0 < 1 + c * A) by nra.
  assert (Hs : 0 <= s) by (unfold s; apply Rmult_le_pos; [lra|left; apply Rinv_0_lt_compat; lra]).
  assert (Hsb : s * b < 3).
  { replace b with (3 * c) by (unfold c; field). apply (Rmult_lt_reg_r (1 + c * A)); [lra|]. unfold s.
    replace (A / (1 + c * A) * (3 * c) * (1 + c * A)) with (3 * (c * A)) by (field; lra). lra. }
  assert (Hk : 2 * (1 - s * b / 3) = 2 / (1 + c * A)) by (unfold s; replace b with (3 * c) by (unfold c; field); field; lra).
  apply (Rle_trans _ (expect (dprod n (fun _ => d)) (fun o => exp (- L) * exp (sumn n (fun i => s * (nth i o 0 - mean d) - s * s * v / (2 * (1 - s * b / 3))))))).
  - apply prob_le_expect; auto.
    + intros. apply Rmult_le_pos; left; apply exp_pos.
    + intros o p Ho Hp E. destruct (Rlt_dec _ _) as [Hlt|]; [|discriminate].
      rewrite <- exp_plus. apply (Rle_trans _ (exp 0)); [rewrite exp_0; lra|]. apply exp_le.
      rewrite sumn_minus, sumn_const, sumn_scal, sumn_minus, sumn_const. unfold avg in Hlt. set (S1 := sumn n (fun i => nth i o 0)) in *.
      assert (Hdiff : INR n * (v * A) + c * L <= S1 - INR n * mean d).
      { apply Rlt_le. apply (Rmult_lt_reg_r (/ INR n)); [apply Rinv_0_lt_compat; auto|]. unfold Rdiv in Hlt.
        replace ((INR n * (v * A) + c * L) * / INR n) with (v * A + c * L * / INR n) by (field; lra).
        replace ((S1 - INR n * mean d) * / INR n) with (S1 * / INR n - mean d) by (field; lra). lra. }
      rewrite Hk.
      apply (Rle_trans _ (- L + (s * (INR n * (v * A) + c * L) - INR n * (s * s * v / (2 / (1 + c * A)))))).
      * right. unfold s.
        replace (A / (1 + c * A) * (INR n * (v * A) + c * L) - INR n * (A / (1 + c * A) * (A / (1 + c * A)) * v / (2 / (1 + c * A))))
          with ((A * A * (INR n * v) / 2 + c * A * L) / (1 + c * A)) by (field; lra).
        rewrite HL. field. lra.
      * apply Rplus_le_compat_l. apply Rplus_le_compat_r. apply Rmult_le_compat_l; auto.
  - rewrite expect_scal. rewrite <- (Rmult_1_r (exp (- L))) at 2. apply Rmult_le_compat_l; [left; apply exp_pos|].
    apply (expect_dprod_exp_le1 n (fun _ => d) (fun i x => s * (x - mean d) - s * s * v / (2 * (1 - s * b / 3)))); auto.
    intros i Hi. apply mgf_bernstein; auto.
Qed.

(** ** Iterated integration over coordinates *)
Definition upd (x : nat -> R) (i : nat) (a : R) : nat -> R := fun j => if Nat.eq_dec j i then a else x j.

Section Coord.
Variable d : dist R.
Definition I1 (i : nat) (F : (nat -> R) -> R) : (nat -> R) -> R := fun x => expect d (fun a => F (upd x i a)).
Fixpoint II (l : list nat) (F : (nat -> R) -> R) : (nat -> R) -> R :=
  match l with [] => F | i :: r => I1 i (II r F) end.

Lemma upd_comm x i j a c : i <> j -> upd (upd x i a) j c = upd (upd x j c) i a.
Proof. intros H. apply functional_extensionality. intros k. unfold upd. destruct (Nat.eq_dec k j), (Nat.eq_dec k i); congruence. Qed.
Lemma upd_twice x i a c : upd (upd x i a) i c = upd x i c.
Proof. apply functional_extensionality. intros k. unfold upd. destruct (Nat.eq_dec k i); reflexivity. Qed.
Lemma I1_comm i j F x : I1 i (I1 j F) x = I1 j (I1 i F) x.
Proof.
  unfold I1. destruct (Nat.eq_dec i j) as [->|H]; [reflexivity|].
  rewrite expect_swap. apply expect_ext_all. intros c. apply expect_ext_all. intros a. rewrite (upd_comm x i j) by auto. reflexivity.
Qed.
Lemma I1_ext i F G x : (forall y, F y = G y) -> I1 i F x = I1 i G x.
Proof. intros H. unfold I1. apply expect_ext_all. auto. Qed.
Lemma II_app l k F x : II (l ++ k) F x = II l (II k F) x.
Proof. revert x. induction l; intros x; [reflexivity|]. simpl. apply I1_ext. auto. Qed.
Lemma II_perm l k F x : Permutation l k -> II l F x = II k F x.
Proof.
  intros P. revert x. induction P; intros x0; simpl; auto.
  - apply I1_ext. auto.
  - apply I1_comm.
  - rewrite IHP1, IHP2. reflexivity.
Qed.
Lemma II_ext l F G x : (forall y, F y = G y) -> II l F x = II l G x.
Proof. intros H. revert x. induction l; intros x; simpl; auto. apply I1_ext. auto. Qed.

(** [F] depends only on the coordinates satisfying [P]. *)
Definition depends (P : nat -> Prop) (F : (nat -> R) -> R) : Prop := forall x y, (forall i, P i -> x i = y i) -> F x = F y.

Lemma II_expect n F x0 : depends (fun i => (i < n)%nat) F ->
  expect (dprod n (fun _ => d)) (fun o => F (fun i => nth i o 0)) = II (seq 0 n) F x0.
Proof.
  revert F. induction n as [|n IH]; intros F HF.
  - simpl. replace (F x0) with (F (fun i => match i with O => 0 | S _ => 0 end)) by (apply HF; intros; lia). lra.
  - simpl dprod. rewrite expect_dbind.
    rewrite (expect_ext (dprod n (fun _ => d)) _ (fun o => I1 n F (fun i => nth i o 0))).
    + rewrite IH.
      * replace (seq 0 (S n)) with (seq 0 n ++ [n]) by (rewrite seq_S; reflexivity). rewrite II_app. reflexivity.
      * intros x y Hxy. unfold I1. apply expect_ext_all. intros a. apply HF. intros i Hi. unfold upd. destruct (Nat.eq_dec i n); auto. apply Hxy. lia.
    + intros o p Ho Hp. rewrite expect_dmap. unfold I1. apply expect_ext_all. intros a. apply HF. intros i Hi.
      destruct (In_dprod n _ o p Ho Hp) as [Hl _]. unfold upd. destruct (Nat.eq_dec i n) as [->|].
      * rewrite app_nth2 by lia. rewrite Hl, Nat.sub_diag. reflexivity.
      * apply app_nth1. lia.
Qed.

Hypothesis Hd : is_dist d.

Lemma I1_mono i F G x : (forall y, F y <= G y) -> I1 i F x <= I1 i G x.
Proof. intros H. unfold I1. apply expect_le_supp; auto. Qed.
Lemma II_const l c x : II l (fun _ => c) x = c.
Proof.
  revert x. induction l as [|i l IH]; intros x; [reflexivity|]. simpl. rewrite (I1_ext i _ (fun _ => c)) by auto.
  unfold I1. apply expect_const. auto.
Qed.
Lemma II_scal l H F x : depends (fun i => ~ In i l) H -> II l (fun y => H y * F y) x = H x * II l F x.
Proof.
  revert x. induction l as [|i l IH]; intros x HH; [reflexivity|]. simpl.
  rewrite (I1_ext i _ (fun y => H y * II l F y)).
  - unfold I1. rewrite <- expect_scal. apply expect_ext_all. intros a. f_equal. apply HH. intros j Hj. unfold upd.
    destruct (Nat.eq_dec j i) as [->|]; auto. exfalso. apply Hj. simpl. auto.
  - intros y. apply IH. intros u w Huw. apply HH. intros j Hj. apply Huw. intros Hin. apply Hj. simpl. auto.
Qed.

(** Disjoint pairs of coordinates: the pairs are given by an involution. *)
Variable G : R -> R -> R.
Hypothesis G_pos : forall a c, 0 <= G a c.
Hypothesis G_le1 : expect d (fun a => expect d (fun c => G a c)) <= 1.
Variable tau : nat -> nat.
Hypothesis tau_inv : forall i, tau (tau i) = i.

Definition pairf (x : nat -> R) (i : nat) : R := if lt_dec i (tau i) then G (x i) (x (tau i)) else 1.
Definition pprod (l : list nat) (x : nat -> R) : R := fold_right (fun i acc => pairf x i * acc) 1 l.

Lemma pprod_perm l k x : Permutation l k -> pprod l x = pprod k x.
Proof. induction 1; simpl; try congruence; try lra. Qed.
Lemma pprod_nonneg l x : 0 <= pprod l x.
Proof. induction l; simpl; [lra|]. apply Rmult_le_pos; auto. unfold pairf. destruct (lt_dec _ _); [apply G_pos|lra]. Qed.
Lemma pprod_depends l x y : (forall i, In i l -> x i = y i /\ x (tau i) = y (tau i)) -> pprod l x = pprod l y.
Proof.
  induction l as [|i l IH]; simpl; intros H; [reflexivity|]. rewrite IH by auto. f_equal. unfold pairf.
  destruct (H i) as [-> ->]; auto.
Qed.

Lemma pairs_le1 k : forall l x, (length l <= k)%nat -> NoDup l -> (forall i, In i l -> In (tau i) l) -> II l (pprod l) x <= 1.
Proof.
  induction k as [|k IH]; intros l x Hk Hnd Hcl.
  - destruct l; [simpl; lra|simpl in Hk; lia].
  - destruct l as [|i l]; [simpl; lra|]. inversion Hnd as [|? ? Hi Hnd']; subst. simpl in Hk.
    destruct (Nat.eq_dec (tau i) i) as [Ht|Ht].
    + simpl II. rewrite (I1_ext i _ (II l (pprod l))).
      * rewrite <- (II_const [i] 1 x). simpl. apply I1_mono. intros y. apply IH; [lia|auto|].
        intros j Hj. destruct (Hcl j) as [E|E]; simpl; auto. exfalso. apply Hi. assert (Eji : j = i) by (rewrite <- (tau_inv j), <- E; exact Ht). rewrite <- Eji. exact Hj.
      * intros y. apply II_ext. intros z. simpl. unfold pairf at 1. rewrite Ht. destruct (lt_dec i i); [lia|]. lra.
    + assert (Hj : In (tau i) l) by (destruct (Hcl i) as [E|E]; simpl; auto; congruence).
      destruct (in_split _ _ Hj) as (l1 & l2 & El). set (j := tau i) in *. set (m := l1 ++ l2).
      assert (P : Permutation (i :: l) (i :: j :: m)) by (constructor; rewrite El; unfold m; symmetry; apply Permutation_middle).
      assert (Nm : NoDup (i :: j :: m)) by (eapply Permutation_NoDup; eauto).
      inversion Nm as [|? ? Ni Nm1]; subst. inversion Nm1 as [|? ? Nj Nm2]; subst.
      assert (Eti : tau i = j) by reflexivity. assert (Etj : tau j = i) by (unfold j; apply tau_inv).
      assert (Hm : forall q, In q m -> In (tau q) m).
      { intros q Hq. assert (Hin : In (tau q) (i :: j :: m)).
        { eapply Permutation_in; [exact P|]. apply Hcl. eapply Permutation_in; [symmetry; exact P|]. simpl. auto. }
        destruct Hin as [E|[E|E]]; auto; exfalso.
        - apply Nj. replace j with q; auto. rewrite <- Eti, E. symmetry. apply tau_inv.
        - apply Ni. simpl. right. replace i with q; auto. rewrite <- Etj, E. symmetry. apply tau_inv. }
      rewrite (II_perm _ _ _ x P). rewrite (II_ext _ _ (fun y => pairf y i * pairf y j * pprod m y)).
      2:{ intros y. rewrite (pprod_perm _ _ y P). simpl. lra. }
      simpl II. rewrite (I1_ext i _ (I1 j (fun y => pairf y i * pairf y j * II m (pprod m) y))).
      2:{ intros y. apply I1_ext. intros z. apply (II_scal m (fun y => pairf y i * pairf y j)).
          intros u w Huw. assert (Ui : u i = w i) by (apply Huw; intros H; apply Ni; simpl; auto). assert (Uj : u j = w j) by (apply Huw; auto).
          unfold pairf. rewrite Eti, Etj, Ui, Uj. reflexivity. }
      assert (PP : forall y, 0 <= pairf y i * pairf y j).
      { intros y. apply Rmult_le_pos; unfold pairf; destruct (lt_dec _ _); try apply G_pos; lra. }
      apply (Rle_trans _ (I1 i (I1 j (fun y => pairf y i * pairf y j)) x)).
      * apply I1_mono. intros y. apply I1_mono. intros z. rewrite <- (Rmult_1_r (pairf z i * pairf z j)) at 2.
        apply Rmult_le_compat_l; auto. apply IH; auto. apply Permutation_length in P. simpl in P. lia.
      * unfold I1, pairf. rewrite Eti, Etj.
        destruct (lt_dec i j) as [H1|H1]; destruct (lt_dec j i) as [H2|H2]; try lia.
        -- rewrite (expect_ext_all d _ (fun a => expect d (fun c => G a c))); auto. intros a. apply expect_ext_all. intros c.
           unfold upd. destruct (Nat.eq_dec i j); [lia|]. destruct (Nat.eq_dec i i), (Nat.eq_dec j j); try lia. lra.
        -- rewrite (expect_ext_all d _ (fun a => expect d (fun c => G c a))).
           ++ rewrite expect_swap. auto.
           ++ intros a. apply expect_ext_all. intros c. unfold upd. destruct (Nat.eq_dec i j); [lia|].
              destruct (Nat.eq_dec i i), (Nat.eq_dec j j); try lia. lra.
Qed.

End Coord.

(** ** The lower tail of the sample variance *)

(** Round-robin pairings of [0 .. n-1]. *)
Definition rr (n k i : nat) : nat := if le_dec i k then (k - i)%nat else if lt_dec i n then (n + k - i)%nat else i.

Lemma rr_inv n k i : (k < n)%nat -> rr n k (rr n k i) = i.
Proof. intros H. unfold rr. repeat (destruct (le_dec _ _) || destruct (lt_dec _ _)); lia. Qed.
Lemma rr_lt n k i : (k < n)%nat -> (i < n)%nat -> (rr n k i < n)%nat.
Proof. intros H Hi. unfold rr. repeat (destruct (le_dec _ _) || destruct (lt_dec _ _)); lia. Qed.
Lemma sumn_rr n i f : (i < n)%nat -> sumn n (fun k => f (rr n k i)) = sumn n f.
Proof.
  intros Hi. replace n with (i + (n - i))%nat at 1 by lia. rewrite sumn_app.
  transitivity (sumn (n - i + i) f); [|f_equal; lia]. rewrite sumn_app, Rplus_comm. f_equal.
  - apply sumn_ext. intros k Hk. f_equal. unfold rr. destruct (le_dec _ _); lia.
  - apply sumn_ext. intros k Hk. f_equal. unfold rr. destruct (le_dec _ _); [lia|]. destruct (lt_dec i n); lia.
Qed.

Lemma exp_avg n z : (0 < n)%nat -> exp (avg n z) <= avg n (fun k => exp (z k)).
Proof.
  intros Hn. set (m := avg n z).
  apply (Rle_trans _ (avg n (fun k => exp m * (1 + (z k - m))))).
  - rewrite avg_scal, avg_plus, avg_minus, !avg_const by auto. fold m. right. ring.
  - apply avg_le; auto. intros k Hk. replace (z k) with (m + (z k - m)) at 2 by ring. rewrite exp_plus.
    apply Rmult_le_compat_l; [left; apply exp_pos|]. apply exp_ge_1.
Qed.

Lemma pprod_exp phi tau l x :
  pprod (fun a c => exp (phi a c)) tau l x = exp (fold_right (fun i acc => (if lt_dec i (tau i) then phi (x i) (x (tau i)) else 0) + acc) 0 l).
Proof.
  induction l as [|i l IH]; simpl; [rewrite exp_0; reflexivity|]. rewrite IH, exp_plus. f_equal. unfold pairf.
  destruct (lt_dec _ _); [reflexivity|]. rewrite exp_0. reflexivity.
Qed.
Lemma fold_sumn f n : fold_right (fun i acc => f i + acc) 0 (seq 0 n) = sumn n f.
Proof.
  assert (forall n s, fold_right (fun i acc => f i + acc) 0 (seq s n) = sumn n (fun i => f (s + i)%nat)) as H.
  { clear n. induction n; intros s; [reflexivity|]. rewrite sumn_S_first. simpl. rewrite IHn. f_equal; [f_equal; lia|]. apply sumn_ext. intros. f_equal. lia. }
  rewrite H. reflexivity.
Qed.

Lemma pairs_mgf n d (phi : R -> R -> R) : (0 < n)%nat -> is_dist d ->
  expect d (fun a => expect d (fun c => exp (phi a c))) <= 1 ->
  expect (dprod n (fun _ => d)) (fun o => exp (avg n (fun i => sumn n (fun j => if lt_dec i j then phi (nth i o 0) (nth j o 0) else 0)))) <= 1.
Proof.
  intros Hn Hd H. assert (HN : 0 < INR n) by (apply lt_0_INR; auto).
  assert (HD : is_dist (dprod n (fun _ => d))) by (apply is_dist_dprod; auto).
  set (Z := fun k (x : nat -> R) => sumn n (fun i => if lt_dec i (rr n k i) then phi (x i) (x (rr n k i)) else 0)).
  apply (Rle_trans _ (expect (dprod n (fun _ => d)) (fun o => avg n (fun k => exp (Z k (fun i => nth i o 0)))))).
  - apply expect_le_supp; auto. intros o p Ho Hp.
    apply (Rle_trans _ (exp (avg n (fun k => Z k (fun i => nth i o 0))))); [|apply exp_avg; auto]. right. f_equal. unfold avg. f_equal.
    unfold Z. symmetry. rewrite (sumn_swap n n). apply sumn_ext. intros i Hi.
    apply (sumn_rr n i (fun j => if lt_dec i j then phi (nth i o 0) (nth j o 0) else 0) Hi).
  - unfold avg. rewrite (expect_ext_all _ _ (fun o => sumn n (fun k => exp (Z k (fun i => nth i o 0))) * / INR n)) by reflexivity.
    rewrite expect_scal_r. rewrite (expect_sumn (dprod n (fun _ => d)) n (fun k o => exp (Z k (fun i => nth i o 0)))).
    apply (Rle_trans _ (sumn n (fun _ => 1) * / INR n)).
    + apply Rmult_le_compat_r; [left; apply Rinv_0_lt_compat; auto|]. apply sumn_le. intros k Hk.
      assert (E : forall x, exp (Z k x) = pprod (fun a c => exp (phi a c)) (rr n k) (seq 0 n) x).
      { intros x. rewrite pprod_exp. f_equal. unfold Z. rewrite (fold_sumn (fun i => if lt_dec i (rr n k i) then phi (x i) (x (rr n k i)) else 0)). reflexivity. }
      rewrite (expect_ext_all _ _ (fun o => pprod (fun a c => exp (phi a c)) (rr n k) (seq 0 n) (fun i => nth i o 0))) by (intros; apply E).
      rewrite (II_expect d n (pprod (fun a c => exp (phi a c)) (rr n k) (seq 0 n)) (fun _ => 0)).
      * apply (pairs_le1 d Hd (fun a c => exp (phi a c))) with (k := n).
        -- intros. left. apply exp_pos.
        -- auto.
        -- intros i. apply rr_inv. auto.
        -- rewrite seq_length. lia.
        -- apply seq_NoDup.
        -- intros i Hi. apply in_seq in Hi. apply in_seq. split; [lia|]. simpl. apply rr_lt; auto. lia.
      * intros x y Hxy. apply pprod_depends. intros i Hi. apply in_seq in Hi. split; apply Hxy; [lia|]. apply rr_lt; auto. lia.
    + rewrite sumn_const. right. field. lra.
Qed.

(** The sum of squared differences of pairs. *)
Lemma pair_differences n f : sumn n (fun i => sumn n (fun j => if lt_dec i j then (f i - f j) * (f i - f j) else 0)) = INR n * INR n * variance n f.
Proof.
  assert (H : INR n * sumn n (fun i => f i * f i) - sumn n f * sumn n f = INR n * INR n * variance n f).
  { destruct n as [|n]; [simpl; ring|]. set (N := S n). assert (HN : 0 < INR N) by (apply lt_0_INR; unfold N; lia).
    unfold variance. set (m := avg N f). unfold avg at 1.
    rewrite (sumn_ext N (fun i => (f i - m) * (f i - m)) (fun i => f i * f i - 2 * m * f i + m * m)) by (intros; ring).
    rewrite sumn_plus, sumn_minus, sumn_scal, sumn_const. unfold m, avg. field. lra. }
  rewrite <- H. clear H. induction n as [|n IH]; [simpl; ring|].
  rewrite S_INR. simpl sumn at 1.
  rewrite (sumn_ext n _ (fun i => sumn n (fun j => if lt_dec i j then (f i - f j) * (f i - f j) else 0) + (f i - f n) * (f i - f n))).
  2:{ intros i Hi. simpl sumn. f_equal. destruct (lt_dec i n); [reflexivity|lia]. }
  rewrite sumn_plus, IH. rewrite (sumn_ext n (fun i => (f i - f n) * (f i - f n)) (fun i => f i * f i - 2 * f n * f i + f n * f n)) by (intros; ring).
  rewrite sumn_plus, sumn_minus, sumn_scal, sumn_const.
  rewrite (sumn_zero n (fun j => if lt_dec n j then (f n - f j) * (f n - f j) else 0)) by (intros; destruct (lt_dec _ _); [lia|reflexivity]).
  destruct (lt_dec n n); [lia|]. simpl sumn. ring.
Qed.
Lemma pair_count n : sumn n (fun i => sumn n (fun j => if lt_dec i j then 1 else 0)) = INR n * (INR n - 1) / 2.
Proof.
  induction n as [|n IH]; [simpl; lra|]. rewrite S_INR. simpl sumn at 1.
  rewrite (sumn_ext n _ (fun i => sumn n (fun j => if lt_dec i j then 1 else 0) + 1)).
  2:{ intros i Hi. simpl sumn. f_equal. destruct (lt_dec i n); [reflexivity|lia]. }
  rewrite sumn_plus, IH, sumn_const.
  rewrite (sumn_zero n (fun j => if lt_dec n j then 1 else 0)) by (intros; destruct (lt_dec _ _); [lia|reflexivity]).
  destruct (lt_dec n n); [lia|]. lra.
Qed.

Lemma pair_variance d : is_dist d -> expect d (fun a => expect d (fun c => (a - c) * (a - c) / 2)) = var d.
Proof.
  intros Hd. set (m := mean d).
  rewrite (expect_ext_all d _ (fun a => (a - m) * (a - m) / 2 + var d / 2)).
  - rewrite expect_plus, (expect_const d _ Hd). unfold Rdiv. rewrite expect_scal_r. unfold var. fold m. field.
  - intros a. rewrite (expect_ext_all d _ (fun c => (a - m) * (a - m) / 2 - (a - m) * (c - m) + (c - m) * (c - m) / 2)) by (intros; field).
    rewrite expect_plus, expect_minus, (expect_const d _ Hd), expect_scal. unfold m. rewrite centered by auto.
    unfold Rdiv at 2. rewrite expect_scal_r. unfold var. field.
Qed.

Lemma variance_lower_tail n d b sig beta L : (1 < n)%nat -> is_dist d -> 0 < b -> within d 0 b ->
  0 < sig -> sig * sig = var d -> 0 <= beta -> (INR n - 1) * (beta * beta) = 2 * (b * b) * L ->
  prob (dprod n (fun _ => d))
    (fun o => if Rle_dec (INR n * variance n (fun i => nth i o 0)) ((INR n - 1) * (sig * sig - sig * beta)) then true else false)
  <= exp (- L).
Proof.
  intros Hn Hd Hb Hw Hs Hv Hbeta HL. assert (HN : 1 < INR n) by (apply (lt_INR 1) in Hn; simpl in Hn; lra).
  assert (HD : is_dist (dprod n (fun _ => d))) by (apply is_dist_dprod; auto).
  set (c := 2 * beta / (b * b * sig)). assert (Hbb : 0 < b * b * sig) by (apply Rmult_lt_0_compat; nra).
  assert (Hc : 0 <= c) by (unfold c; apply Rmult_le_pos; [lra|left; apply Rinv_0_lt_compat; auto]).
  set (lam := - c * (sig * sig) + c * c * (b * b) / 4 * (sig * sig)).
  set (phi := fun a e => - (c * ((a - e) * (a - e) / 2)) - lam).
  assert (Hphi : expect d (fun a => expect d (fun e => exp (phi a e))) <= 1).
  { apply (Rle_trans _ (expect d (fun a => expect d (fun e => (1 + (c * c * (b * b) / 4 - c) * ((a - e) * (a - e) / 2)) * exp (- lam))))).
    - apply expect_le_supp; auto. intros a p Ha Hp. apply expect_le_supp; auto. intros e q He Hq.
      unfold phi. unfold Rminus at 1. rewrite exp_plus. apply Rmult_le_compat_r; [left; apply exp_pos|].
      destruct (Hw a p Ha Hp), (Hw e q He Hq). set (h := (a - e) * (a - e) / 2).
      assert (Hh : 0 <= h <= b * b / 2).
      { unfold h. assert (0 <= (a - e) * (a - e)) by apply Rle_0_sqr.
        assert (Ha2 : - b <= a - e <= b) by lra. assert ((a - e) * (a - e) <= b * b) by nra. lra. }
      pose proof (exp_neg_quadratic (c * h) ltac:(apply Rmult_le_pos; lra)) as Hq2.
      assert (Hch : c * c * (h * h) <= c * c * (b * b / 2 * h)).
      { apply Rmult_le_compat_l; [nra|]. apply Rmult_le_compat_r; lra. }
      replace (c * h * (c * h)) with (c * c * (h * h)) in Hq2 by ring. lra.
    - rewrite (expect_ext_all d _ (fun a => expect d (fun e => 1 + (c * c * (b * b) / 4 - c) * ((a - e) * (a - e) / 2)) * exp (- lam))) by (intros; apply expect_scal_r).
      rewrite expect_scal_r.
      rewrite (expect_ext_all d (fun a => expect d (fun e => 1 + (c * c * (b * b) / 4 - c) * ((a - e) * (a - e) / 2)))
        (fun a => 1 + (c * c * (b * b) / 4 - c) * expect d (fun e => (a - e) * (a - e) / 2))).
      2:{ intros a. rewrite expect_plus, (expect_const d 1 Hd), expect_scal. reflexivity. }
      rewrite expect_plus, (expect_const d 1 Hd), expect_scal, pair_variance by auto. rewrite <- Hv.
      replace (1 + (c * c * (b * b) / 4 - c) * (sig * sig)) with (1 + lam) by (unfold lam; ring).
      apply (Rle_trans _ (exp lam * exp (- lam))).
      + apply Rmult_le_compat_r; [left; apply exp_pos|]. apply exp_ge_1.
      + rewrite <- exp_plus, Rplus_opp_r, exp_0. lra. }
  pose proof (pairs_mgf n d phi ltac:(lia) Hd Hphi) as Hm.
  apply (Rle_trans _ (expect (dprod n (fun _ => d)) (fun o => exp (- L) * exp (avg n (fun i => sumn n (fun j => if lt_dec i j then phi (nth i o 0) (nth j o 0) else 0)))))).
  - apply prob_le_expect; auto.
    + intros. apply Rmult_le_pos; left; apply exp_pos.
    + intros o p Ho Hp E. destruct (Rle_dec _ _) as [Hle|]; [|discriminate].
      rewrite <- exp_plus. apply (Rle_trans _ (exp 0)); [rewrite exp_0; lra|]. apply exp_le.
      set (f := fun i => nth i o 0) in *. unfold avg.
      replace (sumn n (fun i => sumn n (fun j => if lt_dec i j then phi (nth i o 0) (nth j o 0) else 0)))
        with (- (c / 2) * (INR n * INR n * variance n f) - lam * (INR n * (INR n - 1) / 2)).
      2:{ rewrite <- pair_differences, <- pair_count, <- !sumn_scal, <- sumn_minus. apply sumn_ext. intros i Hi.
          rewrite <- !sumn_scal, <- sumn_minus. apply sumn_ext. intros j Hj. unfold phi. fold (f i). fold (f j). destruct (lt_dec i j); [field|ring]. }
      set (W := INR n * variance n f) in *.
      replace ((- (c / 2) * (INR n * INR n * variance n f) - lam * (INR n * (INR n - 1) / 2)) / INR n) with (- (c / 2) * W - lam * (INR n - 1) / 2) by (unfold W; field; lra).
      assert (HcW : c / 2 * W <= c / 2 * ((INR n - 1) * (sig * sig - sig * beta))) by (apply Rmult_le_compat_l; lra).
      apply (Rle_trans _ (- L + (- (c / 2 * ((INR n - 1) * (sig * sig - sig * beta))) - lam * (INR n - 1) / 2))); [|lra].
      right. unfold lam.
      replace (- (c / 2 * ((INR n - 1) * (sig * sig - sig * beta))) - (- c * (sig * sig) + c * c * (b * b) / 4 * (sig * sig)) * (INR n - 1) / 2)
        with ((INR n - 1) * (beta * beta) / (2 * (b * b))) by (unfold c; field; split; lra).
      rewrite HL. field. lra.
  - rewrite expect_scal. rewrite <- (Rmult_1_r (exp (- L))) at 2. apply Rmult_le_compat_l; [left; apply exp_pos|]. exact Hm.
Qed.
