(** * P_ContDraws: property C159 (continuous-action logs over the generator's own randomness) *)

From Coq Require Import Reals List ZArith Lia Lra Bool.
From Coquelicot Require Import Coquelicot.
From Verif Require Import Num NpList M_Utils M_Cont M_Data S_Base S_Cont S_Data S_Draws
  L_Num L_Base L_Utils L_Cont L_ContInt L_Draws L_Data P_Cont P_Draws P_DataCont.
Import ListNotations.
Open Scope R_scope.

(** ** What the statements speak about *)

(** The reward function answers round by round: in round i action [a] has mean reward [m i a]. *)
Definition reward_means (reward : option (mat -> list num -> list num)) (context : mat) (n : nat) (m : nat -> R -> R) : Prop :=
  forall x : nat -> R, match reward with None => map contextfree_reward (tabF n x) | Some f => f context (tabF n x) end = tabF n (fun i => m i (x i)).

(** Reading [Q] at a uniform number draws from the density [p], as far as functions that vanish outside [l, r] can tell. *)
Definition draws_from (Q p : R -> R) (l r : R) : Prop :=
  forall (g : R -> R) (v : R), (forall a, a < l \/ r < a -> g a = 0) -> is_RInt (fun a => p a * g a) l r v -> is_RInt (fun u => g (Q u)) 0 1 v.

(** The kernel [K] with bandwidth [h], centred at [e], averages [f] over [l, r] to [v]. *)
Definition smooths (K : R -> R) (h e l r : R) (f : R -> R) (v : R) : Prop := is_RInt (fun a => K ((e - a) / h) / h * f a) l r v.

(** What an estimator returns on the log generated from [n] uniform draws exists and averages to [v]. *)
Definition cont_estimates {B : Type} (n : nat) (generate : (nat -> R) -> res B) (est : B -> res num) (v : R) : Prop :=
  exists X, (forall us, unit_draws us -> exists b, generate us = Ok b /\ est b = Ok (Fin (X us))) /\ uniform_mean n X v.

(** ** One round *)

Lemma uniform_draws lo hi : lo < hi -> draws_from (fun u => lo + (hi - lo) * u) (fun _ => 1 / (hi - lo)) lo hi.
Proof.
  intros H g v _ Hv.
  assert (Hg : is_RInt g lo hi ((hi - lo) * v)).
  { apply (is_RInt_ext (V := R_NormedModule) (fun a => scal (hi - lo) (1 / (hi - lo) * g a))).
    - intros a _. change ((hi - lo) * (1 / (hi - lo) * g a) = g a). field. lra.
    - apply (is_RInt_scal (V := R_NormedModule)). exact Hv. }
  apply (is_RInt_ext (V := R_NormedModule) (fun u => scal (/ (hi - lo)) (scal (hi - lo) (g ((hi - lo) * u + lo))))).
  - intros u _. change (/ (hi - lo) * ((hi - lo) * g ((hi - lo) * u + lo)) = g (lo + (hi - lo) * u)). rewrite (Rplus_comm lo). field. lra.
  - apply (is_RInt_eq _ _ _ (scal (/ (hi - lo)) ((hi - lo) * v))); [change (/ (hi - lo) * ((hi - lo) * v) = v); field; lra|].
    apply (is_RInt_scal (V := R_NormedModule)). apply (is_RInt_comp_lin (V := R_NormedModule) g).
    replace ((hi - lo) * 0 + lo) with lo by ring. replace ((hi - lo) * 1 + lo) with hi by ring. exact Hg.
Qed.

Lemma round_mean K h e Q p l r m c S W : 0 < h -> l <= r -> draws_from Q p l r -> (forall a, l <= a <= r -> 0 < p a) ->
  (forall u, 0 < u < 1 -> l <= Q u <= r \/ K ((e - Q u) / h) = 0) ->
  smooths K h e l r m S -> smooths K h e l r (fun _ => 1) W ->
  is_RInt (fun u => K ((e - Q u) / h) / (h * p (Q u)) * (m (Q u) + c)) 0 1 (S + c * W).
Proof.
  intros Hh Hlr HQ Hp Hout HS HW.
  set (g := fun a => if Rle_dec l a then if Rle_dec a r then K ((e - a) / h) / (h * p a) * (m a + c) else 0 else 0).
  apply (is_RInt_ext (V := R_NormedModule) (fun u => g (Q u))).
  - intros u Hu. rewrite Rmin_left, Rmax_right in Hu by lra. change (g (Q u) = K ((e - Q u) / h) / (h * p (Q u)) * (m (Q u) + c)).
    unfold g. destruct (Hout u Hu) as [I|Z].
    + destruct (Rle_dec l (Q u)); [|lra]. destruct (Rle_dec (Q u) r); [reflexivity|lra].
    + assert (E : K ((e - Q u) / h) / (h * p (Q u)) * (m (Q u) + c) = 0) by (rewrite Z; unfold Rdiv; ring). rewrite E. destruct (Rle_dec l (Q u)); [destruct (Rle_dec (Q u) r)|]; auto.
  - apply HQ.
    + intros a [Ha|Ha]; unfold g; destruct (Rle_dec l a); try reflexivity; destruct (Rle_dec a r); try reflexivity; lra.
    + apply (is_RInt_ext (V := R_NormedModule) (fun a => plus (K ((e - a) / h) / h * m a) (scal c (K ((e - a) / h) / h * 1)))).
      * intros a Ha. rewrite Rmin_left, Rmax_right in Ha by lra. specialize (Hp a ltac:(lra)).
        change (K ((e - a) / h) / h * m a + c * (K ((e - a) / h) / h * 1) = p a * g a). unfold g. destruct (Rle_dec l a); [|lra]. destruct (Rle_dec a r); [|lra]. field. split; lra.
      * apply (is_RInt_plus (V := R_NormedModule)); [exact HS|]. apply (is_RInt_scal (V := R_NormedModule)). exact HW.
Qed.

Lemma smooths_const K h e l r W c : smooths K h e l r (fun _ => 1) W -> smooths K h e l r (fun _ => c) (c * W).
Proof.
  intros HW. unfold smooths in *. apply (is_RInt_ext (V := R_NormedModule) (fun a => scal c (K ((e - a) / h) / h * 1))).
  - intros a _. change (c * (K ((e - a) / h) / h * 1) = K ((e - a) / h) / h * c). ring.
  - apply (is_RInt_scal (V := R_NormedModule)). exact HW.
Qed.

(** A window inside the range: for the compact kernels the range beyond the window does not matter. *)
Lemma smooths_widen k h e l r f v : k <> Gaussian -> 0 < h -> l <= e - h -> e + h <= r ->
  smooths (Kspec k) h e (e - h) (e + h) f v -> smooths (Kspec k) h e l r f v.
Proof.
  intros Hk Hh Hl Hr Hv. unfold smooths in *.
  assert (Z : forall x y, x <= y -> (y <= e - h \/ e + h <= x) -> is_RInt (fun a => Kspec k ((e - a) / h) / h * f a) x y 0).
  { intros x y Hxy Ho. apply (is_RInt_ext (V := R_NormedModule) (fun _ => 0)).
    - intros a Ha. rewrite Rmin_left, Rmax_right in Ha by lra. rewrite K_support; [unfold Rdiv; symmetry; change (0 * / h * f a = 0); ring|exact Hk|].
      unfold Rdiv. rewrite Rabs_mult, (Rabs_right (/ h)) by (left; apply Rinv_0_lt_compat; auto).
      apply (Rmult_le_reg_r h); auto. rewrite Rmult_assoc, Rinv_l, Rmult_1_l, Rmult_1_r by lra. destruct Ho; [rewrite Rabs_right by lra|rewrite Rabs_left by lra]; lra.
    - apply (is_RInt_eq _ _ _ (scal (y - x) 0)); [change ((y - x) * 0 = 0); ring|]. apply (is_RInt_const (V := R_NormedModule)). }
  apply (is_RInt_eq _ _ _ (plus 0 (plus v 0))); [change (0 + (v + 0) = v); ring|].
  apply (is_RInt_Chasles (V := R_NormedModule) _ l (e - h) r); [apply Z; lra|].
  apply (is_RInt_Chasles (V := R_NormedModule) _ (e - h) (e + h) r); [exact Hv|]. apply Z; lra.
Qed.

(** Change of variable. *)
Lemma smooths_shift K h e x y (f : R -> R) v : 0 < h -> is_RInt (fun u => K u * f (e - h * u)) x y v ->
  smooths K h e (e - h * y) (e - h * x) f v.
Proof.
  intros Hh Hv. set (g := fun u => K u * f (e - h * u)).
  assert (Hc : is_RInt (fun a => scal (- / h) (g (- / h * a + e / h))) (e - h * y) (e - h * x) (opp v)).
  { apply (is_RInt_comp_lin (V := R_NormedModule) g).
    replace (- / h * (e - h * y) + e / h) with y by (field; lra). replace (- / h * (e - h * x) + e / h) with x by (field; lra).
    apply (is_RInt_swap (V := R_NormedModule)). exact Hv. }
  unfold smooths. apply (is_RInt_eq _ _ _ (scal (-1) (opp v))); [change (-1 * - v = v); ring|].
  apply (is_RInt_ext (V := R_NormedModule) (fun a => scal (-1) (scal (- / h) (g (- / h * a + e / h))))).
  2:{ apply (is_RInt_scal (V := R_NormedModule)). exact Hc. }
  intros a _. change (-1 * (- / h * (K (- / h * a + e / h) * f (e - h * (- / h * a + e / h)))) = K ((e - a) / h) / h * f a).
  replace (- / h * a + e / h) with ((e - a) / h) by (field; lra). replace (e - h * ((e - a) / h)) with a by (field; lra). field. lra.
Qed.

Lemma smooths_affine k h e c0 c1 : k <> Gaussian -> 0 < h -> smooths (Kspec k) h e (e - h) (e + h) (fun a => c0 + c1 * a) (c0 + c1 * e).
Proof.
  intros Hk Hh. replace (e - h) with (e - h * 1) by ring. replace (e + h) with (e - h * -1) by ring. apply smooths_shift; auto.
  apply (is_RInt_ext (V := R_NormedModule) (fun u => (c0 + c1 * e + - c1 * h * u) * Kspec k u)).
  - intros u _. change ((c0 + c1 * e + - c1 * h * u) * Kspec k u = Kspec k u * (c0 + c1 * (e - h * u))). ring.
  - apply int_compact; auto.
Qed.

Lemma smooths_one k h e l r : k <> Gaussian -> 0 < h -> l <= e - h -> e + h <= r -> smooths (Kspec k) h e l r (fun _ => 1) 1.
Proof.
  intros Hk Hh Hl Hr. apply smooths_widen; auto. eapply (is_RInt_ext (V := R_NormedModule)); [|apply (is_RInt_eq _ _ _ (1 + 0 * e)); [ring|apply (smooths_affine k h e 1 0 Hk Hh)]].
  intros a _. change (Kspec k ((e - a) / h) / h * (1 + 0 * a) = Kspec k ((e - a) / h) / h * 1). ring.
Qed.

(** Half a kernel. *)
Lemma half_kernel k : k <> Gaussian -> is_RInt (Kspec k) (-1) 0 (1 / 2).
Proof.
  intros Hk.
  assert (H1 : is_RInt (Kspec k) (-1) 1 1).
  { apply (is_RInt_ext (V := R_NormedModule) (fun u => (1 + 0 * u) * Kspec k u)); [|apply int_compact; auto]. intros u _. change ((1 + 0 * u) * Kspec k u = Kspec k u). ring. }
  assert (E1 : ex_RInt (Kspec k) (-1) 1) by (exists 1; exact H1).
  assert (EL : ex_RInt (Kspec k) (-1) 0) by (apply (ex_RInt_Chasles_1 (V := R_CompleteNormedModule) _ (-1) 0 1); [lra|exact E1]).
  assert (ER : ex_RInt (Kspec k) 0 1) by (apply (ex_RInt_Chasles_2 (V := R_CompleteNormedModule) _ (-1) 0 1); [lra|exact E1]).
  destruct EL as [vl Hl]. destruct ER as [vr Hr].
  assert (S1 : vl + vr = 1).
  { apply (is_RInt_unique (V := R_CompleteNormedModule)) in H1. rewrite <- H1. symmetry. apply (is_RInt_unique (V := R_CompleteNormedModule)).
    apply (is_RInt_Chasles (V := R_NormedModule) _ (-1) 0 1 vl vr); auto. }
  assert (S2 : vl = vr).
  { apply (is_RInt_unique (V := R_CompleteNormedModule)) in Hr. rewrite <- Hr. symmetry. apply (is_RInt_unique (V := R_CompleteNormedModule)).
    apply (is_RInt_ext (V := R_NormedModule) (fun u => opp (opp (Kspec k (- u))))).
    - intros u _. change (- - Kspec k (- u) = Kspec k u). rewrite K_sym. ring.
    - apply (is_RInt_eq _ _ _ (opp (opp vl))); [change (- - vl = vl); ring|]. apply (is_RInt_opp (V := R_NormedModule)).
      apply (is_RInt_comp_opp (V := R_NormedModule) (Kspec k)). rewrite Ropp_0. apply (is_RInt_swap (V := R_NormedModule)). exact Hl. }
  apply (is_RInt_eq _ _ _ vl); [lra|exact Hl].
Qed.

(** At the left end of the range the kernel keeps half of its mass. *)
Lemma smooths_left_end k h lo hi : k <> Gaussian -> 0 < h -> lo + h <= hi -> smooths (Kspec k) h lo lo hi (fun _ => 1) (1 / 2).
Proof.
  intros Hk Hh Hr. unfold smooths.
  apply (is_RInt_eq _ _ _ (plus (1 / 2) 0)); [change (1 / 2 + 0 = 1 / 2); ring|].
  apply (is_RInt_Chasles (V := R_NormedModule) _ lo (lo + h) hi).
  - assert (HH : smooths (Kspec k) h lo (lo - h * 0) (lo - h * -1) (fun _ => 1) (1 / 2)).
    { apply (smooths_shift (Kspec k) h lo (-1) 0 (fun _ => 1)); auto.
      eapply (is_RInt_ext (V := R_NormedModule)); [|apply (half_kernel k Hk)]. intros u _. change (Kspec k u = Kspec k u * 1). ring. }
    replace (lo - h * 0) with lo in HH by ring. replace (lo - h * -1) with (lo + h) in HH by ring. exact HH.
  - apply (is_RInt_ext (V := R_NormedModule) (fun _ => 0)).
    + intros a Ha. rewrite Rmin_left, Rmax_right in Ha by lra. rewrite K_support; [unfold Rdiv; symmetry; change (0 * / h * 1 = 0); ring|exact Hk|].
      unfold Rdiv. rewrite Rabs_mult, (Rabs_right (/ h)) by (left; apply Rinv_0_lt_compat; auto).
      apply (Rmult_le_reg_r h); auto. rewrite Rmult_assoc, Rinv_l, Rmult_1_l, Rmult_1_r by lra. rewrite Rabs_left by lra. lra.
    + apply (is_RInt_eq _ _ _ (scal (hi - (lo + h)) 0)); [change ((hi - (lo + h)) * 0 = 0); ring|]. apply (is_RInt_const (V := R_NormedModule)).
Qed.

(** Smoothing a Lipschitz function errs by at most the constant times the bandwidth. *)
Lemma smooths_lipschitz k h e l r f S W L : k <> Gaussian -> 0 < h -> l <= r -> 0 <= L -> (forall a, l <= a <= r -> Rabs (a - e) <= h -> Rabs (f a - f e) <= L * Rabs (a - e)) ->
  smooths (Kspec k) h e l r f S -> smooths (Kspec k) h e l r (fun _ => 1) W -> Rabs (S - f e * W) <= L * h * W.
Proof.
  intros Hk Hh Hlr HL Hf HS HW.
  assert (HD : is_RInt (fun a => Kspec k ((e - a) / h) / h * f a - f e * (Kspec k ((e - a) / h) / h * 1)) l r (S - f e * W)).
  { apply (is_RInt_minus (V := R_NormedModule)); [exact HS|]. apply (is_RInt_scal (V := R_NormedModule) _ l r (f e)). exact HW. }
  assert (HB : is_RInt (fun a => L * h * (Kspec k ((e - a) / h) / h * 1)) l r (L * h * W)) by (apply (is_RInt_scal (V := R_NormedModule) _ l r (L * h)); exact HW).
  assert (PT : forall a, l < a < r -> Rabs (Kspec k ((e - a) / h) / h * f a - f e * (Kspec k ((e - a) / h) / h * 1)) <= L * h * (Kspec k ((e - a) / h) / h * 1)).
  { intros a Ha. set (w := Kspec k ((e - a) / h) / h).
    assert (W0 : 0 <= w) by (apply Rmult_le_pos; [apply K_nonneg|left; apply Rinv_0_lt_compat; auto]).
    replace (w * f a - f e * (w * 1)) with (w * (f a - f e)) by ring. rewrite Rabs_mult, (Rabs_right w) by lra.
    destruct (Rle_dec (Rabs (a - e)) h) as [I|I].
    - assert (Rabs (f a - f e) <= L * h) by (eapply Rle_trans; [apply Hf; [lra|exact I]|apply Rmult_le_compat_l; auto]). nra.
    - assert (w = 0) as ->; [|rewrite !Rmult_0_l, Rmult_0_r; lra]. unfold w. rewrite K_support; [unfold Rdiv; ring|exact Hk|].
      unfold Rdiv. rewrite Rabs_mult, (Rabs_right (/ h)) by (left; apply Rinv_0_lt_compat; auto). rewrite Rabs_minus_sym.
      apply (Rmult_le_reg_r h); auto. rewrite Rmult_assoc, Rinv_l by lra. lra. }
  apply Rabs_le. split.
  - assert (- (L * h * W) <= S - f e * W); [|lra].
    apply (is_RInt_le (fun a => opp (L * h * (Kspec k ((e - a) / h) / h * 1))) (fun a => Kspec k ((e - a) / h) / h * f a - f e * (Kspec k ((e - a) / h) / h * 1)) l r); auto.
    + apply (is_RInt_opp (V := R_NormedModule)). exact HB.
    + intros a Ha. specialize (PT a Ha). apply Rabs_le_between in PT. change (opp (L * h * (Kspec k ((e - a) / h) / h * 1))) with (- (L * h * (Kspec k ((e - a) / h) / h * 1))). lra.
  - apply (is_RInt_le (fun a => Kspec k ((e - a) / h) / h * f a - f e * (Kspec k ((e - a) / h) / h * 1)) (fun a => L * h * (Kspec k ((e - a) / h) / h * 1)) l r); auto.
    intros a Ha. specialize (PT a Ha). apply Rabs_le_between in PT. lra.
Qed.

(** ** Generated logs *)

(** The estimators on a log with finite entries. *)
Lemma kernel_estimates k h n a e p r q : 0 < h -> (0 < n)%nat -> (forall i, (i < n)%nat -> 0 < p i) ->
  kipw_value k (Fin h) (tabF n r) (tabF n a) (tabF n p) (tabF n e) = Ok (Fin (avg n (fun i => Kspec k ((e i - a i) / h) / (h * p i) * r i))) /\
  kdr_value k (Fin h) (tabF n q) (tabF n r) (tabF n a) (tabF n p) (tabF n e)
  = Ok (Fin (avg n (fun i => q i + Kspec k ((e i - a i) / h) / (h * p i) * (r i - q i)))).
Proof.
  intros Hh Hn Hp. set (l := mkCLog n r a e p q). assert (Hl : c_accepted l) by (constructor; auto).
  destruct (C45_kipw_value k h l Hl Hh) as (K1 & E1 & V1). destruct (C45_kdr_value k h l Hl Hh) as (K2 & E2 & V2).
  assert (F1 : forall u, K1 u = Kspec k u) by (intros u; specialize (E1 u); rewrite kernel_Fin in E1; congruence).
  assert (F2 : forall u, K2 u = Kspec k u) by (intros u; specialize (E2 u); rewrite kernel_Fin in E2; congruence).
  split.
  - etransitivity; [exact V1|]. do 2 f_equal. unfold spec_kipw, c_weight. cbn [l cl_n cl_r cl_b cl_e cl_p]. apply avg_ext. intros i Hi. rewrite F1. reflexivity.
  - etransitivity; [exact V2|]. do 2 f_equal. unfold spec_kdr, c_weight. cbn [l cl_n cl_r cl_b cl_e cl_p cl_q]. rewrite <- avg_plus. apply avg_ext. intros i Hi. rewrite F2. reflexivity.
Qed.

(** The log as a table, whatever the logging. *)
Lemma cont_log_table draw pdf lo hi an reward beh n context u noise m :
  (0 < n)%nat -> reward_means reward context n m -> forall (act ps : nat -> R),
  ((exists a b, lo = Fin a /\ hi = Fin b /\ a < b /\ beh = None /\ (forall i, 0 <= u i < 1) /\ (forall i, (i < n)%nat -> act i = a + (b - a) * u i /\ ps i = 1 / (b - a))) \/
   (exists f mu, beh = Some f /\ f context = tab n mu /\
      forall i, (i < n)%nat -> let left := ndiv (nsub lo (Fin (mu i))) (Fin an) in let right := ndiv (nsub hi (Fin (mu i))) (Fin an) in
        act i = draw left right (mu i) an i /\ ps i = pdf (act i) left right (mu i) an)) ->
  exists cb, cont_obtain draw pdf lo hi an reward beh (Z.of_nat n) context u noise = Ok cb /\
    cb_action cb = tabF n act /\ cb_pscore cb = tabF n ps /\ cb_reward cb = tabF n (fun i => m i (act i) + noise i) /\ cb_expected cb = tabF n (fun i => m i (act i)).
Proof.
  intros Hn Hm act ps H.
  set (rw := match reward with None => fun (_ : mat) acts => map contextfree_reward acts | Some f => f end).
  assert (ER : cont_obtain draw pdf lo hi an reward beh (Z.of_nat n) context u noise = cont_obtain draw pdf lo hi an (Some rw) beh (Z.of_nat n) context u noise) by (destruct reward; reflexivity).
  assert (RW : forall x, rw context (tabF n x) = tabF n (fun i => m i (x i))) by (intros x; specialize (Hm x); unfold rw; destruct reward; exact Hm).
  rewrite ER. destruct H as [(a & b & -> & -> & Hab & -> & Hu & HA)|(f & mu & -> & Hf & HA)].
  - unfold cont_obtain, check_scalar_Z. destruct (Z.ltb_spec (Z.of_nat n) 1); [lia|]. cbn [raise_if bind]. rewrite Nat2Z.id.
    assert (EA : map (fun i => uniform_action (Fin a) (Fin b) (u i)) (seq 0 n) = tabF n act).
    { unfold tabF. change (map (fun i => uniform_action (Fin a) (Fin b) (u i)) (seq 0 n)) with (tab n (fun i => uniform_action (Fin a) (Fin b) (u i))). apply tab_ext. intros i Hi. destruct (HA i Hi) as [-> _]. reflexivity. }
    rewrite EA. eexists. split; [reflexivity|]. cbn [cb_action cb_pscore cb_reward cb_expected]. split; [reflexivity|]. split; [|split; [|apply RW]].
    + unfold tabF. rewrite map_tab. apply tab_ext. intros i Hi. destruct (HA i Hi) as [-> ->]. specialize (Hu i). unfold uniform_pdf, nsub, nopp, nadd. rewrite ndiv_Fin by lra.
      replace ((a + (b - a) * u i + - a) / (b + - a)) with (u i) by (field; lra). cbn [nle]. rewrite (proj2 (Rleb_true 0 (u i))) by lra. rewrite (proj2 (Rleb_true (u i) 1)) by lra. cbn [andb].
      rewrite ndiv_Fin by lra. reflexivity.
    + rewrite RW. replace (seq 0 n) with (tab n (fun i => i)) by (unfold tab; apply map_id). unfold tabF. rewrite combine_tab, map_tab. reflexivity.
  - unfold cont_obtain, check_scalar_Z. destruct (Z.ltb_spec (Z.of_nat n) 1); [lia|]. cbn [raise_if bind]. rewrite Nat2Z.id, Hf. cbv zeta.
    assert (Es : seq 0 n = tab n (fun i => i)) by (unfold tab; symmetry; apply map_id).
    match goal with |- context [map ?g (combine (seq 0 n) (tab n mu))] =>
      replace (map g (combine (seq 0 n) (tab n mu))) with (tab n act)
        by (rewrite Es, combine_tab, map_tab; apply tab_ext; intros i Hi; apply (HA i Hi)) end.
    rewrite combine_tab, !map_tab. cbn [fst snd]. change (tab n (fun i => Fin (act i))) with (tabF n act).
    eexists. split; [reflexivity|]. cbn [cb_action cb_pscore cb_reward cb_expected]. split; [reflexivity|]. split; [|split; [|apply RW]].
    + unfold tabF. apply tab_ext. intros i Hi. f_equal. symmetry. apply (HA i Hi).
    + rewrite RW. rewrite Es. unfold tabF. rewrite combine_tab, map_tab. reflexivity.
Qed.

(** Means from the samplers and densities of the rounds. *)
Lemma cont_means k h n (generate : (nat -> R) -> res cont_batch) (smp dens m : nat -> R -> R) noise e q l r S W K :
  0 < h -> (0 < n)%nat -> (forall x, kernel_functions k (Fin x) = Fin (K x)) ->
  (forall us, unit_draws us -> exists cb, generate us = Ok cb /\ cb_action cb = tabF n (fun i => smp i (us i)) /\ cb_pscore cb = tabF n (fun i => dens i (smp i (us i))) /\
     cb_reward cb = tabF n (fun i => m i (smp i (us i)) + noise i)) ->
  (forall i, (i < n)%nat -> l i <= r i /\ draws_from (smp i) (dens i) (l i) (r i) /\ (forall a, l i <= a <= r i -> 0 < dens i a) /\
     (forall v, 0 < v < 1 -> 0 < dens i (smp i v) /\ (l i <= smp i v <= r i \/ K ((e i - smp i v) / h) = 0)) /\
     smooths K h (e i) (l i) (r i) (m i) (S i) /\ smooths K h (e i) (l i) (r i) (fun _ => 1) (W i)) ->
  cont_estimates n generate (fun cb => kipw_value k (Fin h) (cb_reward cb) (cb_action cb) (cb_pscore cb) (tabF n e)) (avg n (fun i => S i + W i * noise i)) /\
  cont_estimates n generate (fun cb => kdr_value k (Fin h) (tabF n q) (cb_reward cb) (cb_action cb) (cb_pscore cb) (tabF n e)) (avg n (fun i => S i + W i * noise i + (1 - W i) * q i)).
Proof.
  intros Hh Hn HK HG HR.
  assert (EK : forall x, K x = Kspec k x) by (intros x; specialize (HK x); rewrite kernel_Fin in HK; congruence).
  assert (PD : forall us, unit_draws us -> forall i, (i < n)%nat -> 0 < dens i (smp i (us i))) by (intros us Hus i Hi; apply (HR i Hi); apply Hus).
  assert (RM : forall i c, (i < n)%nat -> is_RInt (fun v => Kspec k ((e i - smp i v) / h) / (h * dens i (smp i v)) * (m i (smp i v) + c)) 0 1 (S i + c * W i)).
  { intros i c Hi. destruct (HR i Hi) as (H1 & H2 & H3 & H4 & H5 & H6).
    eapply (is_RInt_ext (V := R_NormedModule)); [|apply (round_mean K h (e i) (smp i) (dens i) (l i) (r i) (m i) c (S i) (W i) Hh H1 H2 H3); auto; intros v Hv; apply (H4 v Hv)].
    intros v _. cbv beta. rewrite EK. reflexivity. }
  split.
  - exists (fun us => avg n (fun i => Kspec k ((e i - smp i (us i)) / h) / (h * dens i (smp i (us i))) * (m i (smp i (us i)) + noise i))). split.
    + intros us Hus. destruct (HG us Hus) as (cb & E & A1 & A2 & A3). exists cb. split; [exact E|]. rewrite A1, A2, A3. apply (kernel_estimates k h n _ e _ _ (fun _ => 0)); auto.
    + apply (mean_avg n (fun i v => Kspec k ((e i - smp i v) / h) / (h * dens i (smp i v)) * (m i (smp i v) + noise i))).
      intros i Hi. apply (is_RInt_val _ _ _ (S i + noise i * W i)); [ring|]. apply RM; auto.
  - exists (fun us => avg n (fun i => q i + Kspec k ((e i - smp i (us i)) / h) / (h * dens i (smp i (us i))) * ((m i (smp i (us i)) + noise i) - q i))). split.
    + intros us Hus. destruct (HG us Hus) as (cb & E & A1 & A2 & A3). exists cb. split; [exact E|]. rewrite A1, A2, A3. apply kernel_estimates; auto.
    + apply (mean_avg n (fun i v => q i + Kspec k ((e i - smp i v) / h) / (h * dens i (smp i v)) * ((m i (smp i v) + noise i) - q i))).
      intros i Hi. apply (is_RInt_val _ _ _ (plus ((1 - 0) * q i) (S i + (noise i - q i) * W i))); [change ((1 - 0) * q i + (S i + (noise i - q i) * W i) = S i + W i * noise i + (1 - W i) * q i); ring|].
      apply (is_RInt_ext (V := R_NormedModule) (fun v => plus (q i) (Kspec k ((e i - smp i v) / h) / (h * dens i (smp i v)) * (m i (smp i v) + (noise i - q i))))).
      * intros v _. change (q i + Kspec k ((e i - smp i v) / h) / (h * dens i (smp i v)) * (m i (smp i v) + (noise i - q i)) = q i + Kspec k ((e i - smp i v) / h) / (h * dens i (smp i v)) * ((m i (smp i v) + noise i) - q i)). ring.
      * apply (is_RInt_plus (V := R_NormedModule)); [apply const_int|apply RM; auto].
Qed.

(** ** C159 *)

(** Logging with a sampler [Q] of the truncated normal read at uniform numbers; [l i, r i] is the part of the window of round i where
    actions can be logged. *)
Theorem C159_behaviour : forall k h (Q : num -> num -> R -> R -> R -> R) pdf lo hi an reward f n context u noise mu m e q l r S W,
  0 < h -> (0 < n)%nat -> f context = tab n mu -> reward_means reward context n m ->
  forall K, (forall x, kernel_functions k (Fin x) = Fin (K x)) ->
  (forall i, (i < n)%nat ->
     let left := ndiv (nsub lo (Fin (mu i))) (Fin an) in let right := ndiv (nsub hi (Fin (mu i))) (Fin an) in
     let sample v := Q left right (mu i) an v in let density a := pdf a left right (mu i) an in
     l i <= r i /\ draws_from sample density (l i) (r i) /\ (forall a, l i <= a <= r i -> 0 < density a) /\
     (forall v, 0 < v < 1 -> 0 < density (sample v) /\ (l i <= sample v <= r i \/ K ((e i - sample v) / h) = 0)) /\
     smooths K h (e i) (l i) (r i) (m i) (S i) /\ smooths K h (e i) (l i) (r i) (fun _ => 1) (W i)) ->
  let generate us := cont_obtain (fun a b loc scale i => Q a b loc scale (us i)) pdf lo hi an reward (Some f) (Z.of_nat n) context u noise in
  cont_estimates n generate (fun cb => kipw_value k (Fin h) (cb_reward cb) (cb_action cb) (cb_pscore cb) (tabF n e)) (avg n (fun i => S i + W i * noise i)) /\
  cont_estimates n generate (fun cb => kdr_value k (Fin h) (tabF n q) (cb_reward cb) (cb_action cb) (cb_pscore cb) (tabF n e)) (avg n (fun i => S i + W i * noise i + (1 - W i) * q i)).
Proof.
  intros k h Q pdf lo hi an reward f n context u noise mu m e q l r S W Hh Hn Hf Hm K HK HR generate.
  set (left := fun i => ndiv (nsub lo (Fin (mu i))) (Fin an)). set (right := fun i => ndiv (nsub hi (Fin (mu i))) (Fin an)).
  set (smp := fun i v => Q (left i) (right i) (mu i) an v). set (dens := fun i a => pdf a (left i) (right i) (mu i) an).
  assert (HG : forall us, exists cb, generate us = Ok cb /\ cb_action cb = tabF n (fun i => smp i (us i)) /\ cb_pscore cb = tabF n (fun i => dens i (smp i (us i))) /\
     cb_reward cb = tabF n (fun i => m i (smp i (us i)) + noise i)).
  { intros us. destruct (cont_log_table (fun a b loc scale i => Q a b loc scale (us i)) pdf lo hi an reward (Some f) n context u noise m Hn Hm (fun i => smp i (us i)) (fun i => dens i (smp i (us i)))) as (cb & E & A1 & A2 & A3 & _).
    - right. exists f, mu. split; [reflexivity|]. split; [exact Hf|]. intros i Hi. split; reflexivity.
    - exists cb. auto. }
  apply (cont_means k h n generate smp dens m noise e q l r S W K Hh Hn HK); auto.
Qed.

(** Uniform logging between finite bounds. *)
Theorem C159_uniform : forall k h draw pdf lo hi an reward n context noise m e q S W,
  0 < h -> lo < hi -> (0 < n)%nat -> reward_means reward context n m ->
  forall K, (forall x, kernel_functions k (Fin x) = Fin (K x)) ->
  (forall i, (i < n)%nat -> smooths K h (e i) lo hi (m i) (S i) /\ smooths K h (e i) lo hi (fun _ => 1) (W i)) ->
  let generate us := cont_obtain draw pdf (Fin lo) (Fin hi) an reward None (Z.of_nat n) context us noise in
  cont_estimates n generate (fun cb => kipw_value k (Fin h) (cb_reward cb) (cb_action cb) (cb_pscore cb) (tabF n e)) (avg n (fun i => S i + W i * noise i)) /\
  cont_estimates n generate (fun cb => kdr_value k (Fin h) (tabF n q) (cb_reward cb) (cb_action cb) (cb_pscore cb) (tabF n e)) (avg n (fun i => S i + W i * noise i + (1 - W i) * q i)).
Proof.
  intros k h draw pdf lo hi an reward n context noise m e q S W Hh Hlh Hn Hm K HK HS generate.
  assert (P : 0 < 1 / (hi - lo)) by (apply Rmult_lt_0_compat; [lra|apply Rinv_0_lt_compat; lra]).
  apply (cont_means k h n generate (fun _ v => lo + (hi - lo) * v) (fun _ _ => 1 / (hi - lo)) m noise e q (fun _ => lo) (fun _ => hi) S W K Hh Hn HK).
  - intros us Hus. destruct (cont_log_table draw pdf (Fin lo) (Fin hi) an reward None n context us noise m Hn Hm (fun i => lo + (hi - lo) * us i) (fun _ => 1 / (hi - lo))) as (cb & E & A1 & A2 & A3 & _).
    + left. exists lo, hi. repeat split; auto; specialize (Hus i); lra.
    + exists cb. auto.
  - intros i Hi. destruct (HS i Hi) as [H1 H2]. split; [lra|]. split; [apply uniform_draws; auto|]. split; [auto|]. split; [|auto].
    intros v Hv. split; [exact P|left; nra].
Qed.

(** Compact kernels and windows inside the range of the actions: both estimators average to the smoothed value, within Lipschitz constant
    times bandwidth of the ground truth, and exactly to the ground truth for affine rewards. *)
Theorem C159_interior : forall k h draw pdf lo hi an reward n context noise m e q S dim,
  k <> Gaussian -> 0 < h -> lo < hi -> (0 < n)%nat -> length context = n -> length (nth 0 context []) = dim -> reward_means reward context n m ->
  forall K, (forall x, kernel_functions k (Fin x) = Fin (K x)) ->
  (forall i, (i < n)%nat -> lo <= e i - h /\ e i + h <= hi /\ smooths K h (e i) (e i - h) (e i + h) (m i) (S i)) ->
  let generate us := cont_obtain draw pdf (Fin lo) (Fin hi) an reward None (Z.of_nat n) context us noise in
  let v := avg n (fun i => S i + noise i) in
  cont_estimates n generate (fun cb => kipw_value k (Fin h) (cb_reward cb) (cb_action cb) (cb_pscore cb) (tabF n e)) v /\
  cont_estimates n generate (fun cb => kdr_value k (Fin h) (tabF n q) (cb_reward cb) (cb_action cb) (cb_pscore cb) (tabF n e)) v /\
  exists truth, cont_ground_truth dim reward context (tabF n e) = Ok (Fin truth) /\
    (forall L, 0 <= L -> (forall i a, (i < n)%nat -> Rabs (a - e i) <= h -> Rabs (m i a - m i (e i)) <= L * Rabs (a - e i)) -> Rabs (v - (truth + avg n noise)) <= L * h) /\
    (forall c0 c1, (forall i a, (i < n)%nat -> Rabs (a - e i) <= h -> m i a = c0 i + c1 i * a) -> v = truth + avg n noise).
Proof.
  intros k h draw pdf lo hi an reward n context noise m e q S dim Hk Hh Hlh Hn Hc Hd Hm K HK HS generate v.
  assert (EK : forall x, K x = Kspec k x) by (intros x; specialize (HK x); rewrite kernel_Fin in HK; congruence).
  assert (SE : forall e0 l r f w, smooths K h e0 l r f w <-> smooths (Kspec k) h e0 l r f w).
  { intros e0 l r f w. unfold smooths. split; apply (is_RInt_ext (V := R_NormedModule)); intros a _; cbv beta; rewrite EK; reflexivity. }
  destruct (C159_uniform k h draw pdf lo hi an reward n context noise m e q S (fun _ => 1) Hh Hlh Hn Hm K HK) as [A B].
  { intros i Hi. destruct (HS i Hi) as (L1 & R1 & S1). rewrite !SE in *. split; [apply smooths_widen; auto|apply smooths_one; auto]. }
  split; [|split].
  - eapply eq_ind; [exact A|]. apply avg_ext. intros; ring.
  - eapply eq_ind; [exact B|]. apply avg_ext. intros; ring.
  - exists (avg n (fun i => m i (e i))). split; [|split].
    + apply (C109_ground_truth dim reward context (tabF n e) n (fun i => m i (e i))); auto. apply tab_length.
    + intros L HL Hlip. unfold v. rewrite !avg_plus.
      replace (avg n S + avg n noise - (avg n (fun i => m i (e i)) + avg n noise)) with (avg n S - avg n (fun i => m i (e i))) by ring.
      assert (PT : forall i, (i < n)%nat -> Rabs (S i - m i (e i)) <= L * h).
      { intros i Hi. destruct (HS i Hi) as (L1 & R1 & S1). rewrite SE in S1.
        pose proof (smooths_lipschitz k h (e i) (e i - h) (e i + h) (m i) (S i) 1 L Hk Hh ltac:(lra) HL (fun a _ Ha => Hlip i a Hi Ha) S1 (smooths_one k h (e i) (e i - h) (e i + h) Hk Hh ltac:(lra) ltac:(lra))) as Q.
        rewrite !Rmult_1_r in Q. exact Q. }
      apply Rabs_le. unfold avg, Rdiv. rewrite <- Rmult_minus_distr_r, <- sumn_minus. pose proof (INR_pos n Hn) as PN.
      assert (U : sumn n (fun i => S i - m i (e i)) <= sumn n (fun _ => L * h)) by (apply sumn_le; intros i Hi; specialize (PT i Hi); apply Rabs_le_between in PT; lra).
      assert (D : sumn n (fun _ => - (L * h)) <= sumn n (fun i => S i - m i (e i))) by (apply sumn_le; intros i Hi; specialize (PT i Hi); apply Rabs_le_between in PT; lra).
      rewrite sumn_const in U, D. split; apply (Rmult_le_reg_r (INR n)); auto; rewrite Rmult_assoc, Rinv_l by lra; lra.
    + intros c0 c1 Haff. unfold v. rewrite avg_plus. f_equal. apply avg_ext. intros i Hi. destruct (HS i Hi) as (L1 & R1 & S1). rewrite SE in S1.
      assert (A2 : smooths (Kspec k) h (e i) (e i - h) (e i + h) (m i) (c0 i + c1 i * e i)).
      { eapply (is_RInt_ext (V := R_NormedModule)); [|apply (smooths_affine k h (e i) (c0 i) (c1 i) Hk Hh)]. intros a Ha. rewrite Rmin_left, Rmax_right in Ha by lra. cbv beta. rewrite Haff; auto. apply Rabs_le. lra. }
      apply (is_RInt_unique (V := R_CompleteNormedModule)) in S1. apply (is_RInt_unique (V := R_CompleteNormedModule)) in A2. rewrite <- S1, A2. rewrite Haff; auto. rewrite Rminus_diag_eq, Rabs_R0 by reflexivity. lra.
Qed.

(** At the end of the range half of the kernel is lost: with a reward that does not depend on the action, an evaluation policy that plays the
    lowest action is estimated at half its value by KernelizedIPW, and half-way to the prediction by KernelizedDR. *)
Theorem C159_boundary : forall k h draw pdf lo hi an reward n context noise c q dim,
  k <> Gaussian -> 0 < h -> lo + h <= hi -> (0 < n)%nat -> length context = n -> length (nth 0 context []) = dim -> reward_means reward context n (fun _ _ => c) ->
  let e := tabF n (fun _ => lo) in
  let generate us := cont_obtain draw pdf (Fin lo) (Fin hi) an reward None (Z.of_nat n) context us noise in
  cont_ground_truth dim reward context e = Ok (Fin c) /\
  cont_estimates n generate (fun cb => kipw_value k (Fin h) (cb_reward cb) (cb_action cb) (cb_pscore cb) e) ((c + avg n noise) / 2) /\
  cont_estimates n generate (fun cb => kdr_value k (Fin h) (tabF n q) (cb_reward cb) (cb_action cb) (cb_pscore cb) e) ((c + avg n noise) / 2 + avg n q / 2).
Proof.
  intros k h draw pdf lo hi an reward n context noise c q dim Hk Hh Hlh Hn Hc Hd Hm e generate.
  destruct (C159_uniform k h draw pdf lo hi an reward n context noise (fun _ _ => c) (fun _ => lo) q (fun _ => c * (1 / 2)) (fun _ => 1 / 2) Hh ltac:(lra) Hn Hm (Kspec k) (kernel_Fin k)) as [A B].
  { intros i Hi. split; [apply smooths_const|]; apply smooths_left_end; auto. }
  pose proof (INR_pos n Hn) as PN.
  assert (EI : avg n (fun i => c * (1 / 2) + 1 / 2 * noise i) = (c + avg n noise) / 2).
  { rewrite avg_plus, avg_const by auto. unfold avg. rewrite sumn_scal. field. lra. }
  split; [|split].
  - rewrite <- (avg_const n c Hn). apply (C109_ground_truth dim reward context e n (fun _ => c)); auto; [apply tab_length|]. apply (Hm (fun _ => lo)).
  - rewrite <- EI. exact A.
  - eapply eq_ind; [exact B|]. rewrite avg_plus, EI. f_equal. unfold avg. rewrite (sumn_ext n _ (fun i => 1 / 2 * q i)) by (intros; lra). rewrite sumn_scal. field. lra.
Qed.

(** Rewards 2a - 1 logged uniformly on [0, 10], evaluated at action 4 with bandwidth 1: both estimators average to 7. *)
Example C159_example : let reward := Some (fun (_ : mat) acts => map (fun a => nsub (nmul (Fin 2) a) (Fin 1)) acts) in
  reward_means reward [[0]; [1]] 2 (fun _ a => 2 * a - 1) /\
  cont_estimates 2 (fun us => cont_obtain (fun _ _ _ _ _ => 0) (fun _ _ _ _ _ => 0) (Fin 0) (Fin 10) 1 reward None 2 [[0]; [1]] us (fun _ => 0))
    (fun cb => kipw_value Triangular (Fin 1) (cb_reward cb) (cb_action cb) (cb_pscore cb) (tabF 2 (fun _ => 4))) 7 /\
  (** the same with an inverse-cdf sampler of a behaviour policy around 5 *)
  cont_estimates 2 (fun us => cont_obtain (fun _ _ loc sc i => (loc - sc) + ((loc + sc) - (loc - sc)) * us i) (fun _ _ _ loc sc => 1 / ((loc + sc) - (loc - sc))) NInf PInf 3 reward
      (Some (fun _ => tab 2 (fun _ => 5))) 2 [[0]; [1]] (fun _ => 0) (fun _ => 0))
    (fun cb => kipw_value Triangular (Fin 1) (cb_reward cb) (cb_action cb) (cb_pscore cb) (tabF 2 (fun _ => 4))) 7.
Proof.
  intros reward.
  assert (Hm : reward_means reward [[0]; [1]] 2 (fun _ a => 2 * a - 1)).
  { intros x. unfold reward, tabF. rewrite map_tab. apply tab_ext. intros i _. cbn. f_equal. }
  assert (HS : smooths (Kspec Triangular) 1 4 (4 - 1) (4 + 1) (fun a => 2 * a - 1) 7).
  { pose proof (smooths_affine Triangular 1 4 (-1) 2 ltac:(discriminate) ltac:(lra)) as H. unfold smooths in *.
    apply (is_RInt_eq _ _ _ (-1 + 2 * 4)); [lra|]. eapply (is_RInt_ext (V := R_NormedModule)); [|exact H]. intros a _. cbv beta. f_equal. ring. }
  split; [exact Hm|]. split.
  - destruct (C159_interior Triangular 1 (fun _ _ _ _ _ => 0) (fun _ _ _ _ _ => 0) 0 10 1 reward 2 [[0]; [1]] (fun _ => 0) (fun _ a => 2 * a - 1) (fun _ => 4) (fun _ => 0) (fun _ => 7) 1%nat)
      with (K := Kspec Triangular) as (A & _); auto; try lra; try discriminate; [intros; apply kernel_Fin|intros i Hi; repeat split; [lra|lra|exact HS]|].
    eapply eq_ind; [exact A|]. unfold avg, sumn. cbn [INR]. field.
  - destruct (C159_behaviour Triangular 1 (fun _ _ loc sc v => (loc - sc) + ((loc + sc) - (loc - sc)) * v) (fun _ _ _ loc sc => 1 / ((loc + sc) - (loc - sc))) NInf PInf 3 reward (fun _ => tab 2 (fun _ => 5)) 2 [[0]; [1]]
      (fun _ => 0) (fun _ => 0) (fun _ => 5) (fun _ a => 2 * a - 1) (fun _ => 4) (fun _ => 0) (fun _ => 5 - 3) (fun _ => 5 + 3) (fun _ => 7) (fun _ => 1)) with (K := Kspec Triangular) as (A & _); auto; try lra.
    + intros; apply kernel_Fin.
    + intros i Hi. cbv zeta. split; [lra|]. split; [apply uniform_draws; lra|]. split; [intros; lra|]. split; [intros v Hv; split; [lra|left; lra]|].
      split; [apply smooths_widen; [discriminate|lra|lra|lra|exact HS]|apply smooths_one; [discriminate|lra|lra|lra]].
    + eapply eq_ind; [exact A|]. unfold avg, sumn. cbn [INR]. field.
Qed.

Print Assumptions C159_behaviour.
Print Assumptions C159_uniform.
Print Assumptions C159_interior.
Print Assumptions C159_boundary.
