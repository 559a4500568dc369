(** * P_Explore: property C152 (how much the epsilon-greedy policies explore) *)

From Coq Require Import Reals List ZArith Lia Lra Bool.
From Coquelicot Require Import Coquelicot.
From Verif Require Import Num NpList M_Utils M_Policy M_Linear M_Logistic S_Base S_Tuning S_Policy S_Linear S_Logistic S_Explore
  L_Num L_Base L_Utils L_Policy L_Linear L_Logistic L_Tuning L_Draws P_Policy P_Linear P_Logistic.
Import ListNotations.
Open Scope R_scope.

(** ** Draws without replacement *)

Lemma mean_of_ext {A} (l : list A) f g : (forall a, In a l -> f a = g a) -> mean_of l f = mean_of l g.
Proof.
  intros H. unfold mean_of. f_equal. induction l as [|x l IH]; [reflexivity|]. cbn [fold_right]. rewrite H by (left; auto).
  rewrite IH; [reflexivity|]. intros; apply H; right; auto.
Qed.

Lemma mean_of_const {A} (l : list A) c : l <> [] -> mean_of l (fun _ => c) = c.
Proof.
  intros H. unfold mean_of. assert (E : fold_right (fun (_ : A) s => c + s) 0 l = INR (length l) * c).
  { clear H. induction l as [|x l IH]; [cbn; ring|]. cbn [fold_right length]. rewrite IH, S_INR. ring. }
  rewrite E. field. apply not_0_INR. destruct l; [congruence|]. simpl; lia.
Qed.

Lemma mean_of_lin {A} (l : list A) f g c : mean_of l (fun a => f a + c * g a) = mean_of l f + c * mean_of l g.
Proof.
  unfold mean_of. assert (E : fold_right (fun a s => f a + c * g a + s) 0 l = fold_right (fun a s => f a + s) 0 l + c * fold_right (fun a s => g a + s) 0 l).
  { induction l as [|x l IH]; [cbn; ring|]. cbn [fold_right]. rewrite IH. ring. }
  rewrite E. unfold Rdiv. ring.
Qed.

Lemma mean_of_le {A} (l : list A) f g : (forall a, In a l -> f a <= g a) -> mean_of l f <= mean_of l g.
Proof.
  intros H. unfold mean_of, Rdiv. apply Rmult_le_compat_r.
  - destruct l; [cbn; rewrite Rinv_0; lra|]. left. apply Rinv_0_lt_compat, lt_0_INR. simpl; lia.
  - induction l as [|x l IH]; [cbn; lra|]. cbn [fold_right]. apply Rplus_le_compat; [apply H; left; auto|apply IH; intros; apply H; right; auto].
Qed.

Lemma length_remove a pool : NoDup pool -> In a pool -> S (length (remove Nat.eq_dec a pool)) = length pool.
Proof.
  induction pool as [|b pool IH]; intros HN HI; [destruct HI|]. inversion HN as [|? ? Nb HN']; subst. cbn [remove].
  destruct (Nat.eq_dec a b) as [->|Hab].
  - rewrite notin_remove by auto. reflexivity.
  - destruct HI as [->|HI]; [congruence|]. cbn [length]. rewrite IH by auto. reflexivity.
Qed.

Lemma NoDup_remove_dec a pool : NoDup pool -> NoDup (remove Nat.eq_dec a pool).
Proof.
  induction pool as [|b pool IH]; intros HN; [constructor|]. inversion HN; subst. cbn [remove]. destruct (Nat.eq_dec a b); auto.
  constructor; auto. intros HI. apply in_remove in HI. tauto.
Qed.

(** Only rankings of the pool are drawn. *)
Definition drawn (L : nat) (pool l : list nat) : Prop := NoDup l /\ length l = L /\ forall a, In a l -> In a pool.

Lemma draw_ext L : forall pool F G, NoDup pool -> (L <= length pool)%nat -> (forall l, drawn L pool l -> F l = G l) -> draw_mean L pool F = draw_mean L pool G.
Proof.
  induction L as [|L IH]; intros pool F G HN HL H; cbn [draw_mean].
  - apply H. repeat split; [constructor|intros a []].
  - apply mean_of_ext. intros a Ha. pose proof (length_remove a pool HN Ha). apply IH; [apply NoDup_remove_dec; auto|lia|]. intros l (H1 & H2 & H3). apply H.
    repeat split; [constructor; auto| |].
    + intros HI. apply H3 in HI. apply in_remove in HI. tauto.
    + cbn; lia.
    + intros b [<-|Hb]; auto. apply H3, in_remove in Hb. tauto.
Qed.

Lemma draw_le L : forall pool F G, NoDup pool -> (L <= length pool)%nat -> (forall l, drawn L pool l -> F l <= G l) -> draw_mean L pool F <= draw_mean L pool G.
Proof.
  induction L as [|L IH]; intros pool F G HN HL H; cbn [draw_mean].
  - apply H. repeat split; [constructor|intros a []].
  - apply mean_of_le. intros a Ha. pose proof (length_remove a pool HN Ha). apply IH; [apply NoDup_remove_dec; auto|lia|]. intros l (H1 & H2 & H3). apply H.
    repeat split; [constructor; auto| |].
    + intros HI. apply H3 in HI. apply in_remove in HI. tauto.
    + cbn; lia.
    + intros b [<-|Hb]; auto. apply H3, in_remove in Hb. tauto.
Qed.

Lemma draw_const L : forall pool c, NoDup pool -> (L <= length pool)%nat -> draw_mean L pool (fun _ => c) = c.
Proof.
  induction L as [|L IH]; intros pool c HN HL; cbn [draw_mean]; [reflexivity|].
  rewrite (mean_of_ext _ _ (fun _ => c)).
  - apply mean_of_const. destruct pool; [simpl in HL; lia|discriminate].
  - intros a Ha. pose proof (length_remove a pool HN Ha). apply IH; [apply NoDup_remove_dec; auto|lia].
Qed.

Lemma draw_lin L : forall pool F G c, draw_mean L pool (fun l => F l + c * G l) = draw_mean L pool F + c * draw_mean L pool G.
Proof.
  induction L as [|L IH]; intros pool F G c; cbn [draw_mean]; [reflexivity|]. rewrite <- mean_of_lin. apply mean_of_ext. intros a Ha. apply IH.
Qed.

(** Each position of a random ranking shows each action of the pool equally often. *)
Lemma draw_position L : forall j pool (w : nat -> R) d, NoDup pool -> (j < L)%nat -> (L <= length pool)%nat ->
  draw_mean L pool (fun l => w (nth j l d)) = mean_of pool w.
Proof.
  induction L as [|L IH]; intros j pool w d HN Hj HL; [lia|]. cbn [draw_mean]. destruct j as [|j].
  - apply mean_of_ext. intros a Ha. cbn [nth]. pose proof (length_remove a pool HN Ha). apply draw_const; [apply NoDup_remove_dec; auto|lia].
  - rewrite (mean_of_ext _ _ (fun a => mean_of (remove Nat.eq_dec a pool) w)).
    2:{ intros a Ha. cbn [nth]. pose proof (length_remove a pool HN Ha). apply IH; [apply NoDup_remove_dec; auto|lia|lia]. }
    assert (ES : forall p, NoDup p -> forall a, In a p -> fold_right (fun a s => w a + s) 0 (remove Nat.eq_dec a p) = fold_right (fun a s => w a + s) 0 p - w a).
    { clear. induction p as [|b p IHp]; intros HN a HI; [destruct HI|]. inversion HN as [|? ? Nb HN']; subst. cbn [remove].
      destruct (Nat.eq_dec a b) as [->|Hab].
      - rewrite notin_remove by auto. cbn [fold_right]. ring.
      - destruct HI as [->|HI]; [congruence|]. cbn [fold_right]. rewrite IHp by auto. ring. }
    set (N := length pool) in *. set (W := fold_right (fun a s => w a + s) 0 pool).
    rewrite (mean_of_ext _ _ (fun a => W / INR (N - 1) + (- / INR (N - 1)) * w a)).
    + rewrite mean_of_lin, mean_of_const by (destruct pool; [cbn in N; lia|discriminate]). unfold mean_of. fold W. fold N.
      assert (HN1 : INR N = INR (N - 1) + 1) by (rewrite <- S_INR; f_equal; lia).
      assert (0 < INR (N - 1)) by (apply lt_0_INR; lia). rewrite HN1. field. split; lra.
    + intros a Ha. unfold mean_of. rewrite ES by auto. fold W. pose proof (length_remove a pool HN Ha).
      replace (length (remove Nat.eq_dec a pool)) with (N - 1)%nat by lia. unfold Rdiv. ring.
Qed.

Lemma mean_of_seq K w : mean_of (seq 0 K) w = avg K w.
Proof.
  unfold mean_of, avg. rewrite seq_length. f_equal. rewrite <- (map_id (seq 0 K)). fold (tab K (fun i => i)).
  transitivity (Rsum (map w (tab K (fun i => i)))).
  - generalize (tab K (fun i => i)). induction l as [|x l IH]; [reflexivity|]. cbn [fold_right map Rsum]. rewrite IH. reflexivity.
  - rewrite map_tab. apply Rsum_tab.
Qed.

Lemma drawn_ranking K L l : drawn L (seq 0 K) l <-> is_ranking K L l.
Proof.
  unfold drawn, is_ranking. split; intros (H1 & H2 & H3); repeat split; auto; intros a Ha; apply H3 in Ha; [apply in_seq in Ha; lia|apply in_seq; lia].
Qed.

(** ** Explore with probability epsilon *)

Lemma split_int e (A B : R) : 0 <= e <= 1 -> is_RInt (fun u => if Rltb e u then A else B) 0 1 (e * B + (1 - e) * A).
Proof.
  intros He. eapply is_RInt_val; [|apply (is_RInt_Chasles (V := R_NormedModule) _ 0 e 1)].
  2:{ apply (is_RInt_ext (V := R_NormedModule) (fun _ => B)); [|apply const_int]. intros u Hu. rewrite Rmin_left, Rmax_right in Hu by lra.
      destruct (Rltb e u) eqn:E; [apply Rltb_true in E; lra|reflexivity]. }
  2:{ apply (is_RInt_ext (V := R_NormedModule) (fun _ => A)); [|apply const_int]. intros u Hu. rewrite Rmin_left, Rmax_right in Hu by lra.
      destruct (Rltb e u) eqn:E; [reflexivity|apply Rltb_false in E; lra]. }
  unfold plus; simpl. ring.
Qed.

Lemma mixes_Rltb e select g : mixes e select g <-> forall u c, select u c = Ok (if Rltb e u then g else c).
Proof.
  split; intros H u c.
  - destruct (H u c) as [H1 H2]. destruct (Rltb e u) eqn:E; [apply H1, Rltb_true; auto|apply H2; apply Rltb_false in E; lra].
  - rewrite H. split; intros Hu; [rewrite (proj2 (Rltb_true e u)) by auto|rewrite (proj2 (Rltb_false e u)) by lra]; reflexivity.
Qed.

Lemma mixes_mean K L e select g F : (L <= K)%nat -> 0 <= e <= 1 -> mixes e select g ->
  select_mean K L select F (e * draw_mean L (seq 0 K) (fun c => F (Ok c)) + (1 - e) * F (Ok g)).
Proof.
  intros HL He H. rewrite mixes_Rltb in H. unfold select_mean. eapply (is_RInt_ext (V := R_NormedModule)); [|apply split_int; exact He].
  intros u _. cbv beta. destruct (Rltb e u) eqn:E.
  - symmetry. etransitivity; [apply (draw_ext L _ _ (fun _ => F (Ok g))); [apply seq_NoDup|rewrite seq_length; auto|]|apply draw_const; [apply seq_NoDup|rewrite seq_length; auto]].
    intros l _. cbv beta. rewrite H, E. reflexivity.
  - apply draw_ext; [apply seq_NoDup|rewrite seq_length; auto|]. intros l _. rewrite H, E. reflexivity.
Qed.

Lemma random_mean K L select F : (L <= K)%nat -> (forall u c, select u c = Ok c) -> select_mean K L select F (draw_mean L (seq 0 K) (fun c => F (Ok c))).
Proof.
  intros HL H. unfold select_mean. eapply (is_RInt_ext (V := R_NormedModule) (fun _ => draw_mean L (seq 0 K) (fun c => F (Ok c)))).
  - intros u _. apply draw_ext; [apply seq_NoDup|rewrite seq_length; auto|]. intros l _. rewrite H. reflexivity.
  - eapply is_RInt_val; [|apply const_int]. ring.
Qed.

Lemma shown_random K L j a : (L <= K)%nat -> (j < L)%nat -> (a < K)%nat -> draw_mean L (seq 0 K) (fun c => shown j a (Ok c)) = / INR K.
Proof.
  intros HL Hj Ha. rewrite (draw_ext L _ _ (fun l => (fun x => if Nat.eqb x a then 1 else 0) (nth j l 0%nat))).
  - rewrite (draw_position L j (seq 0 K) (fun x => if Nat.eqb x a then 1 else 0) 0%nat) by (auto using seq_NoDup; rewrite ?seq_length; auto).
    rewrite mean_of_seq. unfold avg.
    rewrite (sumn_ext K _ (fun x => if Nat.eqb a x then 1 else 0)) by (intros i Hi; rewrite Nat.eqb_sym; reflexivity).
    rewrite sumn_indicator by auto. unfold Rdiv. ring.
  - apply seq_NoDup.
  - rewrite seq_length; auto.
  - intros l (_ & EL & _). unfold shown. rewrite (nth_indep l a 0%nat) by lia. destruct (Nat.eqb _ a); auto.
    destruct (Nat.ltb_spec j (length l)); [reflexivity|lia].
Qed.

Lemma shown_nonneg j a r : 0 <= shown j a r.
Proof. unfold shown. destruct r; [|lra]. destruct (Nat.eqb _ _); [destruct (Nat.ltb _ _)|]; lra. Qed.

(** Total over many rounds, for any policy that in every round mixes or draws at random. *)
Lemma total_bounds {E} K L e (select : list E -> R -> list nat -> res (list nat)) pos env (w : nat -> R) (m M : R) (valid : list E -> Prop) :
  (0 < L)%nat -> (L <= K)%nat -> 0 <= e <= 1 -> (forall a, (a < K)%nat -> m <= w a <= M) -> (forall h, (pos h < L)%nat) ->
  (forall h a, valid h -> (a < K)%nat -> valid (h ++ [env h a])) ->
  (forall h, valid h -> (exists g, is_ranking K L g /\ mixes e (select h) g) \/ forall u c, select h u c = Ok c) ->
  forall T h, valid h ->
  total_exists K L select pos env w T h /\
  INR T * (e * avg K w + (1 - e) * m) <= expected_total K L select pos env w T h <= INR T * (e * avg K w + (1 - e) * M).
Proof.
  intros HL0 HL He Hw Hpos Hval Hsel. induction T as [|T IH]; intros h Hh; [cbn; split; [auto|lra]|].
  cbn [total_exists expected_total]. rewrite S_INR. set (lo := e * avg K w + (1 - e) * m) in *. set (hi := e * avg K w + (1 - e) * M) in *.
  set (rest := expected_total K L select pos env w T) in *.
  set (f := fun a => w a + rest (h ++ [env h a])).
  assert (Hf : forall a, (a < K)%nat -> w a + INR T * lo <= f a <= w a + INR T * hi).
  { intros a Ha. destruct (IH _ (Hval h a Hh Ha)) as [_ IH']. unfold f. lra. }
  assert (Ha0 : forall l, drawn L (seq 0 K) l -> (nth (pos h) l 0 < K)%nat).
  { intros l Hl. apply drawn_ranking in Hl as (_ & EL & Hl). apply Hl, nth_In. rewrite EL. apply Hpos. }
  set (Y := draw_mean L (seq 0 K) (fun l => f (nth (pos h) l 0%nat))).
  assert (EY : avg K w + INR T * lo <= Y <= avg K w + INR T * hi).
  { assert (EC : forall c, draw_mean L (seq 0 K) (fun l => w (nth (pos h) l 0%nat) + 1 * c) = avg K w + c).
    { intros c. rewrite (draw_lin L (seq 0 K) (fun l => w (nth (pos h) l 0%nat)) (fun _ => c) 1).
      rewrite (draw_position L (pos h) (seq 0 K) w 0%nat), draw_const, mean_of_seq by (auto using seq_NoDup; rewrite ?seq_length; auto). ring. }
    split; rewrite <- EC; apply draw_le; try (apply seq_NoDup); try (rewrite seq_length; auto; fail); intros l Hl; specialize (Hf _ (Ha0 l Hl)); lra. }
  assert (HT : forall a, (a < K)%nat -> total_exists K L select pos env w T (h ++ [env h a])) by (intros a Ha; apply IH, Hval; auto).
  assert (Havg : m <= avg K w <= M).
  { rewrite <- !mean_of_seq. assert (HK : seq 0 K <> []) by (destruct K; [lia|discriminate]).
    split; [rewrite <- (mean_of_const (seq 0 K) m HK)|rewrite <- (mean_of_const (seq 0 K) M HK)]; apply mean_of_le; intros a Ha; apply in_seq in Ha; apply Hw; lia. }
  destruct (Hsel h Hh) as [(g & Hg & Hmix)|Hrand].
  - assert (HI : is_RInt (round_outcome K L select pos env w rest h) 0 1 (e * Y + (1 - e) * f (nth (pos h) g 0%nat))).
    { exact (mixes_mean K L e (select h) g (fun r => match r with Ok l => f (nth (pos h) l 0%nat) | Err _ => 0 end) HL He Hmix). }
    split; [split; [eexists; exact HI|exact HT]|]. rewrite (is_RInt_unique _ _ _ _ HI).
    assert (Hg' : (nth (pos h) g 0 < K)%nat) by (apply Ha0, drawn_ranking; auto). specialize (Hf _ Hg'). specialize (Hw _ Hg').
    unfold lo, hi in *. destruct EY. split; nra.
  - assert (HI : is_RInt (round_outcome K L select pos env w rest h) 0 1 Y).
    { exact (random_mean K L (select h) (fun r => match r with Ok l => f (nth (pos h) l 0%nat) | Err _ => 0 end) HL Hrand). }
    split; [split; [eexists; exact HI|exact HT]|]. rewrite (is_RInt_unique _ _ _ _ HI). unfold lo, hi in *. destruct EY. split; nra.
Qed.

Lemma all_pos_dec (f : nat -> nat) K : (forall b, (b < K)%nat -> (0 < f b)%nat) \/ ~ (forall b, (b < K)%nat -> (0 < f b)%nat).
Proof.
  induction K as [|K IH]; [left; intros; lia|]. destruct IH as [H|H]; [|right; intros H'; apply H; intros; apply H'; lia].
  destruct (Nat.eq_dec (f K) 0); [right; intros H'; specialize (H' K ltac:(lia)); lia|]. left. intros b Hb.
  destruct (Nat.eq_dec b K) as [->|]; [lia|apply H; lia].
Qed.

Lemma nth_rep {A} (x y : A) n i : (i < n)%nat -> nth i (repeat x n) y = x.
Proof. revert i. induction n as [|n IH]; intros [|i] Hi; cbn; try lia; auto. apply IH. lia. Qed.

(** ** C152 *)

(** The law of one call of EpsilonGreedy.  Before every action occurs in the committed history all rankings are equally likely; afterwards
    it shows the ranking by the committed mean rewards with probability 1 - epsilon and a random ranking with probability epsilon. *)
Theorem C152_select_law : forall argsort K L B p0 h e,
  (forall xs, is_argsort xs (argsort xs)) -> cf_post_init (Z.of_nat K) (Z.of_nat L) (Z.of_nat B) = Ok p0 ->
  (forall r, In r h -> valid_action K (fst r)) -> 0 <= e <= 1 ->
  let h' := committed B h in
  let select := eg_select_action argsort (Fin e) (updates p0 h) in
  ((forall a, (a < K)%nat -> (0 < times K h' a)%nat) ->
   exists g, best_first K L (fun a => total K h' a / INR (times K h' a)) g /\ mixes e select g /\
     forall F, select_mean K L select F (e * draw_mean L (seq 0 K) (fun c => F (Ok c)) + (1 - e) * F (Ok g))) /\
  (~ (forall a, (a < K)%nat -> (0 < times K h' a)%nat) ->
   (forall u c, select u c = Ok c) /\ forall F, select_mean K L select F (draw_mean L (seq 0 K) (fun c => F (Ok c)))).
Proof.
  intros argsort K L B p0 h e Hs H0 Hv He h' select. pose proof (post_init_inv _ _ _ _ H0) as (H1 & H2 & H3 & _).
  assert (HO := fun u c => C68_epsilon_greedy_order argsort K L B p0 h e u c Hs H0 Hv). cbv zeta in HO. fold h' in HO. fold select in HO. split.
  - intros Hw. destruct (proj1 (HO (e + 1) [])) as (g & Eg & Hg); [split; [lra|exact Hw]|]. exists g. split; [exact Hg|].
    assert (HM : mixes e select g).
    { apply mixes_Rltb. intros u c. destruct (Rltb e u) eqn:Eu.
      - rewrite <- Eg. unfold select, eg_select_action. cbn [nlt]. rewrite Eu. replace (Rltb e (e + 1)) with true by (symmetry; apply Rltb_true; lra).
        destruct (zminl (cf_action_counts (updates p0 h))) as [z|] eqn:Ez; [|reflexivity]. cbn [bind]. destruct (Z.ltb 0 z) eqn:E0; [reflexivity|].
        exfalso. unfold select, eg_select_action in Eg. cbn [nlt] in Eg.
        replace (Rltb e (e + 1)) with true in Eg by (symmetry; apply Rltb_true; lra). rewrite Ez in Eg. cbn [bind] in Eg. rewrite E0 in Eg.
        injection Eg as <-. destruct Hg as ((_ & EL & _) & _). cbn in EL. lia.
      - apply (proj2 (HO u c)). apply Rltb_false in Eu. intros [? _]. lra. }
    split; [exact HM|]. intros F. apply mixes_mean; auto. lia.
  - intros Hc. assert (HR : forall u c, select u c = Ok c) by (intros u c; apply (proj2 (HO u c)); tauto).
    split; [exact HR|]. intros F. apply random_mean; auto. lia.
Qed.

(** The probability that an action is shown at a position: never less than epsilon / K, exactly that for an action the means do not put
    there, and 1/K for everyone during the warm-up. *)
Theorem C152_position : forall argsort K L B p0 h e j a,
  (forall xs, is_argsort xs (argsort xs)) -> cf_post_init (Z.of_nat K) (Z.of_nat L) (Z.of_nat B) = Ok p0 ->
  (forall r, In r h -> valid_action K (fst r)) -> 0 <= e <= 1 -> (j < L)%nat -> (a < K)%nat ->
  let h' := committed B h in
  exists v, select_mean K L (eg_select_action argsort (Fin e) (updates p0 h)) (shown j a) v /\ e / INR K <= v /\
    ((forall b, (b < K)%nat -> (0 < times K h' b)%nat) ->
     exists g, best_first K L (fun b => total K h' b / INR (times K h' b)) g /\
       v = e / INR K + (1 - e) * (if Nat.eqb (nth j g 0%nat) a then 1 else 0)) /\
    (~ (forall b, (b < K)%nat -> (0 < times K h' b)%nat) -> v = / INR K).
Proof.
  intros argsort K L B p0 h e j a Hs H0 Hv He Hj Ha h'. pose proof (post_init_inv _ _ _ _ H0) as (H1 & H2 & H3 & _).
  assert (HK : 0 < / INR K) by (apply Rinv_0_lt_compat, lt_0_INR; lia).
  destruct (C152_select_law argsort K L B p0 h e Hs H0 Hv He) as [HW HC]. fold h' in HW, HC.
  destruct (all_pos_dec (times K h') K) as [Hw|Hc].
  - destruct (HW Hw) as (g & Hg & _ & HF). specialize (HF (shown j a)). rewrite shown_random in HF by (auto; lia).
    eexists. split; [exact HF|]. pose proof (shown_nonneg j a (Ok g)). split; [unfold Rdiv; nra|]. split; [|tauto].
    intros _. exists g. split; [exact Hg|]. unfold Rdiv. f_equal. f_equal. destruct Hg as ((_ & EL & _) & _). unfold shown.
    rewrite (nth_indep g a 0%nat) by lia. destruct (Nat.eqb _ a); [|reflexivity]. destruct (Nat.ltb_spec j (length g)); [reflexivity|lia].
  - destruct (HC Hc) as [_ HF]. specialize (HF (shown j a)). rewrite shown_random in HF by (auto; lia).
    eexists. split; [exact HF|]. split; [unfold Rdiv; nra|]. split; [tauto|reflexivity].
Qed.

(** Over any number of rounds, against any environment (the rewards may depend on everything that happened), at any positions: an action
    is played in at least a share epsilon / K of the rounds on average, and what the policy collects of any per-action quantity [w] is
    within the bounds exploration leaves: an epsilon share at the average of [w], the rest between its extremes. *)
Theorem C152_total : forall argsort K L B p0 e pos reward (w : nat -> R) m M T h,
  (forall xs, is_argsort xs (argsort xs)) -> cf_post_init (Z.of_nat K) (Z.of_nat L) (Z.of_nat B) = Ok p0 ->
  (forall r, In r h -> valid_action K (fst r)) -> 0 <= e <= 1 -> (forall h, (pos h < L)%nat) -> (forall a, (a < K)%nat -> m <= w a <= M) ->
  let select h := eg_select_action argsort (Fin e) (updates p0 h) in
  let env (h : history) a := (Z.of_nat a, reward h a) in
  total_exists K L select pos env w T h /\
  INR T * (e * avg K w + (1 - e) * m) <= expected_total K L select pos env w T h <= INR T * (e * avg K w + (1 - e) * M).
Proof.
  intros argsort K L B p0 e pos reward w m M T h Hs H0 Hv He Hpos Hw select env. pose proof (post_init_inv _ _ _ _ H0) as (H1 & H2 & H3 & _).
  apply (total_bounds K L e select pos env w m M (fun h => forall r, In r h -> valid_action K (fst r))); auto; try lia.
  - intros g a Hg Ha r Hr. apply in_app_or in Hr as [Hr|[<-|[]]]; auto. unfold env, valid_action; cbn [fst]. lia.
  - intros g Hg. destruct (C152_select_law argsort K L B p0 g e Hs H0 Hg He) as [HW HC].
    destruct (all_pos_dec (times K (committed B g)) K) as [Hwm|Hc].
    + left. destruct (HW Hwm) as (k & (Hk & _) & HM & _). exists k. auto.
    + right. apply HC. auto.
Qed.

Theorem C152_pulls : forall argsort K L B p0 e pos reward T h a,
  (forall xs, is_argsort xs (argsort xs)) -> cf_post_init (Z.of_nat K) (Z.of_nat L) (Z.of_nat B) = Ok p0 ->
  (forall r, In r h -> valid_action K (fst r)) -> 0 <= e <= 1 -> (forall h, (pos h < L)%nat) -> (a < K)%nat ->
  INR T * (e / INR K) <=
  expected_total K L (fun h => eg_select_action argsort (Fin e) (updates p0 h)) pos (fun h b => (Z.of_nat b, reward h b))
    (fun b => if Nat.eqb a b then 1 else 0) T h.
Proof.
  intros argsort K L B p0 e pos reward T h a Hs H0 Hv He Hpos Ha.
  destruct (C152_total argsort K L B p0 e pos reward (fun b => if Nat.eqb a b then 1 else 0) 0 1 T h Hs H0 Hv He Hpos) as [_ [H _]].
  { intros b _. destruct (Nat.eqb a b); lra. }
  eapply Rle_trans; [|exact H]. apply Req_le. f_equal. unfold avg. rewrite sumn_indicator by auto. unfold Rdiv. ring.
Qed.

(** Random reports the law of its own choices: every entry of [compute_batch_action_dist] is the probability that [select_action] shows
    that action at that position. *)
Theorem C152_random : forall argsort K L B p0 h n i j a,
  (forall xs, is_argsort xs (argsort xs)) -> cf_post_init (Z.of_nat K) (Z.of_nat L) (Z.of_nat B) = Ok p0 ->
  (forall r, In r h -> valid_action K (fst r)) -> (i < n)%nat -> (j < L)%nat -> (a < K)%nat ->
  exists v, nth j (nth a (nth i (random_compute_batch_action_dist (updates p0 h) n) []) []) NaN = Fin v /\
    select_mean K L (eg_select_action argsort (Fin 1) (updates p0 h)) (shown j a) v.
Proof.
  intros argsort K L B p0 h n i j a Hs H0 Hv Hi Hj Ha. pose proof (post_init_inv _ _ _ _ H0) as (H1 & H2 & H3 & _).
  exists (/ INR K). split.
  - pose proof H0 as H0'. apply post_init_after in H0'. rewrite !Nat2Z.id in H0'. subst p0. rewrite updates_after by (auto; lia). unfold random_compute_batch_action_dist, after.
    cbn [cf_n_actions cf_len_list]. rewrite nth_rep by auto. rewrite nth_rep by auto. rewrite nth_rep by auto.
    unfold nnat. rewrite ndiv_Fin by (apply INR_ne; lia). cbn [nmul]. f_equal. field. apply INR_ne; lia.
  - destruct (C152_select_law argsort K L B p0 h 1 Hs H0 Hv ltac:(lra)) as [HW HC].
    assert (ES := shown_random K L j a ltac:(lia) Hj Ha).
    destruct (all_pos_dec (times K (committed B h)) K) as [Hw|Hc].
    + destruct (HW Hw) as (g & _ & _ & HF). specialize (HF (shown j a)). rewrite ES in HF. unfold select_mean in *.
      eapply is_RInt_val; [|exact HF]. ring.
    + destruct (HC Hc) as [_ HF]. rewrite <- ES. apply HF.
Qed.

(** The contextual policies: LinEpsilonGreedy shows the ranking by ridge predictions with probability 1 - epsilon, LogisticEpsilonGreedy the
    one by predicted click probabilities, and each a random ranking otherwise, from the first round on. *)
Theorem C152_linear : forall argsort d K L B p0 h e x j a,
  (forall xs, is_argsort xs (argsort xs)) -> lin_post_init (Z.of_nat d) (Z.of_nat K) (Z.of_nat L) (Z.of_nat B) = Ok p0 ->
  (forall r, In r h -> valid_action K (rd_action r)) -> 0 <= e <= 1 -> (j < L)%nat -> (a < K)%nat ->
  let h' := committed B h in
  exists theta g,
    (forall b w, (b < K)%nat -> ridge_loss K d h' b (theta b) <= ridge_loss K d h' b w) /\
    best_first K L (fun b => dot d x (theta b)) g /\
    select_mean K L (lin_eg_select_action argsort (Fin e) (lin_updates d p0 h) [tabF d x]) (shown j a)
      (e / INR K + (1 - e) * (if Nat.eqb (nth j g 0%nat) a then 1 else 0)).
Proof.
  intros argsort d K L B p0 h e x j a Hs H0 Hv He Hj Ha h'. pose proof H0 as H0'. apply lin_post_init_inv in H0' as (H1 & H2 & H3 & H4 & _).
  destruct (C92_greedy_by_ridge_regression argsort d K L B p0 h e x (e + 1) [] Hs H0 Hv) as (theta & HT & _ & HA & _). fold h' in HT.
  destruct HA as (g & Eg & Hg); [lra|]. exists theta, g. split; [exact HT|]. split; [exact Hg|].
  assert (HM : mixes e (lin_eg_select_action argsort (Fin e) (lin_updates d p0 h) [tabF d x]) g).
  { apply mixes_Rltb. intros u c. destruct (Rltb e u) eqn:Eu.
    - rewrite <- Eg. unfold lin_eg_select_action. cbn [nlt]. rewrite Eu. replace (Rltb e (e + 1)) with true by (symmetry; apply Rltb_true; lra). reflexivity.
    - destruct (C92_greedy_by_ridge_regression argsort d K L B p0 h e x u c Hs H0 Hv) as (_ & _ & _ & _ & HN). apply HN. apply Rltb_false in Eu. lra. }
  unfold select_mean. eapply is_RInt_val; [|apply (mixes_mean K L e _ g (shown j a)); auto; lia].
  rewrite shown_random by (auto; lia). unfold Rdiv. f_equal. f_equal. destruct Hg as ((_ & EL & _) & _). unfold shown.
  rewrite (nth_indep g a 0%nat) by lia. destruct (Nat.eqb _ a); [|reflexivity]. destruct (Nat.ltb_spec j (length g)); [reflexivity|lia].
Qed.

Theorem C152_logistic : forall argsort minimize opt al lam d K L B p0 h e x j a,
  (forall xs, is_argsort xs (argsort xs)) ->
  log_post_init (Fin al) (Fin lam) (Z.of_nat d) (Z.of_nat K) (Z.of_nat L) (Z.of_nat B) = Ok p0 ->
  (forall Lf G x, minimize Lf G x = tabF d (opt Lf G x)) ->
  (forall r, In r h -> valid_action K (rd_action r)) -> 0 <= e <= 1 -> (j < L)%nat -> (a < K)%nat ->
  let p := log_updates minimize d p0 h in
  exists m g,
    (forall b, (b < K)%nat -> lr_m (nth b (lg_models p) no_model) = tabF d (m b)) /\
    best_first K L (fun b => dot d x (m b)) g /\
    select_mean K L (log_eg_select_action argsort (Fin e) p [tabF d x]) (shown j a)
      (e / INR K + (1 - e) * (if Nat.eqb (nth j g 0%nat) a then 1 else 0)).
Proof.
  intros argsort minimize opt al lam d K L B p0 h e x j a Hs H0 Hm Hv He Hj Ha p.
  pose proof H0 as H0'. apply (log_post_init_inv al lam _ _ _ _ p0 minimize) in H0' as (_ & _ & H1 & H2 & H3 & H4 & _).
  set (smp := fun (_ : nat) (_ _ : list num) (_ : nat) => 0).
  assert (HR := fun u c => C68_logistic_rankings argsort minimize opt al lam d K L B p0 h e x u c (fun a m s => tabF d (smp a m s)) smp Hs H0 Hm Hv (fun _ _ _ => eq_refl)).
  cbv zeta in HR. fold p in HR. destruct (HR (e + 1) []) as (m & q & Em & HA & _). destruct HA as (g & Eg & Hg); [lra|].
  exists m, g. split; [intros b Hb; apply Em; auto|]. split; [exact Hg|].
  assert (HM : mixes e (log_eg_select_action argsort (Fin e) p [tabF d x]) g).
  { apply mixes_Rltb. intros u c. destruct (Rltb e u) eqn:Eu.
    - rewrite <- Eg. unfold log_eg_select_action. cbn [nlt]. rewrite Eu. replace (Rltb e (e + 1)) with true by (symmetry; apply Rltb_true; lra). reflexivity.
    - destruct (HR u c) as (_ & _ & _ & _ & HN & _). apply HN. apply Rltb_false in Eu. lra. }
  unfold select_mean. eapply is_RInt_val; [|apply (mixes_mean K L e _ g (shown j a)); auto; lia].
  rewrite shown_random by (auto; lia). unfold Rdiv. f_equal. f_equal. destruct Hg as ((_ & EL & _) & _). unfold shown.
  rewrite (nth_indep g a 0%nat) by lia. destruct (Nat.eqb _ a); [|reflexivity]. destruct (Nat.ltb_spec j (length g)); [reflexivity|lia].
Qed.

(** Two actions, one committed round each, the second paid better: with epsilon = 1/4 the first is shown with probability 1/8. *)
Example C152_ex : exists p0,
  cf_post_init 2 1 1 = Ok p0 /\ select_mean 2 1 (eg_select_action isort (Fin (1/4)) (updates p0 [(0%Z, 0); (1%Z, 1)])) (shown 0 0) (1/8).
Proof.
  exists (after 2 1 1 []). assert (H0 : cf_post_init 2 1 1 = Ok (after 2 1 1 [])) by (apply (post_init_ok 2 1 1); lia). split; [exact H0|].
  destruct (C152_position isort 2 1 1 _ [(0%Z, 0); (1%Z, 1)] (1/4) 0 0 isort_ok H0) as (v & HV & _ & HW & _); try lia; try lra.
  { intros r [<-|[<-|[]]]; unfold valid_action; simpl; lia. }
  destruct HW as (g & ((_ & EL & HI) & _ & HB) & Ev); [intros [|[|b]] Hb; [| |lia]; vm_compute; lia|].
  unfold select_mean in *. eapply is_RInt_val; [|exact HV]. rewrite Ev. destruct g as [|b [|c g]]; try discriminate. cbn [nth].
  destruct b as [|b].
  - exfalso. specialize (HB 1%nat 0%nat ltac:(lia)). cbn in HB. assert (H : 1 / 1 <= 0 / 1); [|lra].
    specialize (HB ltac:(intros [|[]]; discriminate) ltac:(left; reflexivity)). cbn in HB. change (Pos.to_nat 1) with 1%nat in HB. cbn in HB. lra.
  - cbn. lra.
Qed.

Example C152_pulls_ex : exists p0, cf_post_init 2 1 1 = Ok p0 /\
  5 / 2 <= expected_total 2 1 (fun h => eg_select_action isort (Fin (1/2)) (updates p0 h)) (fun _ => 0%nat)
    (fun h b => (Z.of_nat b, if Nat.even (length h) then INR b else 1 - INR b)) (fun b => if Nat.eqb 0 b then 1 else 0) 10 [].
Proof.
  exists (after 2 1 1 []). assert (H0 : cf_post_init 2 1 1 = Ok (after 2 1 1 [])) by (apply (post_init_ok 2 1 1); lia). split; [exact H0|].
  pose proof (C152_pulls isort 2 1 1 _ (1/2) (fun _ => 0%nat) (fun h b => if Nat.even (length h) then INR b else 1 - INR b) 10 [] 0 isort_ok H0
    ltac:(intros r []) ltac:(lra) ltac:(intros; cbv beta; lia) ltac:(lia)) as H.
  eapply Rle_trans; [|exact H]. replace (INR 10) with 10 by (simpl; ring). replace (INR 2) with 2 by (simpl; ring). lra.
Qed.

Print Assumptions C152_select_law.
Print Assumptions C152_position.
Print Assumptions C152_total.
Print Assumptions C152_pulls.
Print Assumptions C152_random.
Print Assumptions C152_linear.
Print Assumptions C152_logistic.
