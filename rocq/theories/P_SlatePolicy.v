(** * P_SlatePolicy: evaluation policies of the slate generator (C63, C111-C113). *)

From Coq Require Import String Reals List ZArith Bool Lia Lra Sorted Permutation.
From Verif Require Import Num NpList M_Utils M_Data M_SlateData S_Base S_Data S_SlateReg S_SlateData L_Num L_Base L_Utils L_Data L_SlateEst L_SlateData P_Utils P_DataMC P_SlateData.
Import ListNotations.
Open Scope R_scope.

(** ** Products *)
Lemma prodn_first n f : prodn (S n) f = f 0%nat * prodn n (fun k => f (S k)).
Proof. induction n as [|n IH]; [simpl; ring|]. cbn [prodn] in *. rewrite IH. ring. Qed.
Lemma prodn_ext n f g : (forall k, (k < n)%nat -> f k = g k) -> prodn n f = prodn n g.
Proof. induction n as [|n IH]; intros H; [reflexivity|]. cbn [prodn]. rewrite IH, H by (intros; try apply H; lia). reflexivity. Qed.
Lemma prodn_pos n f : (forall k, (k < n)%nat -> 0 < f k) -> 0 < prodn n f.
Proof. induction n as [|n IH]; intros H; cbn [prodn]; [lra|]. apply Rmult_lt_0_compat; [apply IH; intros; apply H; lia|apply H; lia]. Qed.
Lemma prodn_inv n f : (forall k, (k < n)%nat -> 0 < f k) -> prodn n (fun k => 1 / f k) = 1 / prodn n f.
Proof.
  intros H. induction n as [|n IH]; cbn [prodn]; [field|]. rewrite IH by (intros; apply H; lia).
  pose proof (H n ltac:(lia)). assert (0 < prodn n f) by (apply prodn_pos; intros; apply H; lia). field. lra.
Qed.
Lemma prodn_const n c : prodn n (fun _ => c) = c ^ n.
Proof. induction n as [|n IH]; cbn [prodn pow]; [reflexivity|]. rewrite IH. ring. Qed.
Lemma cumprod_tab L : forall acc f, cumprod acc (tab L f) = tab L (fun j => acc * prodn (S j) f).
Proof.
  induction L as [|L IH]; intros acc f; [reflexivity|]. rewrite !tab_S_first. cbn [cumprod]. f_equal; [cbn [prodn]; ring|].
  rewrite IH. apply tab_ext. intros j _. rewrite (prodn_first (S j)). ring.
Qed.
Lemma perm_count_prodn L : forall K, perm_count K L = prodn L (fun k => INR (K - k)).
Proof.
  induction L as [|L IH]; intros K; [reflexivity|]. cbn [perm_count]. rewrite prodn_first, IH, Nat.sub_0_r. f_equal.
  apply prodn_ext. intros k _. f_equal. lia.
Qed.

(** ** Uniform rankings *)
Lemma left_after_length K s j : NoDup s -> (forall a, In a s -> (a < K)%nat) -> (j <= length s)%nat ->
  length (left_after false (seq 0 K) (firstn j s)) = (K - j)%nat.
Proof.
  intros Hn HK. induction j as [|j IH]; intros Hj.
  - cbn [firstn]. unfold left_after. cbn [fold_left]. rewrite seq_length. lia.
  - rewrite (firstn_snoc s j 0%nat) by lia. unfold left_after. rewrite fold_left_app. fold (left_after false (seq 0 K) (firstn j s)).
    cbn [fold_left after]. rewrite del_length; [rewrite IH by lia; lia|rewrite left_after_filter; apply NoDup_filter, seq_NoDup|].
    rewrite left_after_filter, filter_In. split; [apply in_seq; split; [lia|]; apply HK, nth_In; lia|]. cbn [orb].
    apply negb_true_iff. destruct (existsb (Nat.eqb (nth j s 0%nat)) (firstn j s)) eqn:E; [|reflexivity]. exfalso.
    apply existsb_exists in E as (x & Hx & Ex). apply Nat.eqb_eq in Ex. subst x.
    apply (In_nth _ _ 0%nat) in Hx as (i & Hi & Ei). rewrite firstn_length in Hi.
    assert (Ei' : nth i (firstn j s) 0%nat = nth i s 0%nat).
    { rewrite <- (firstn_skipn j s) at 2. rewrite app_nth1 by (rewrite firstn_length; lia). reflexivity. }
    rewrite Ei' in Ei. apply (proj1 (NoDup_nth s 0%nat) Hn) in Ei; lia.
Qed.
Definition uniform_prob (fact : bool) (K k : nat) : R := if fact then 1 / INR K ^ k else 1 / prodn k (fun j => INR (K - j)).
Lemma ranking_uniform (fact : bool) K L s k : (1 <= L)%nat -> slate_of fact K L s -> (k <= L)%nat ->
  ranking_prob fact K (fun _ => 1) (slots s) k = uniform_prob fact K k.
Proof.
  intros HL Hs Hk. pose proof Hs as (Hl & HK & Hn). unfold ranking_prob, uniform_prob.
  assert (H0 : (0 < K)%nat) by (destruct s as [|a s]; [simpl in Hl; lia|]; specialize (HK a (or_introl eq_refl)); lia).
  rewrite (prodn_ext k _ (fun j => 1 / (if fact then INR K else INR (K - j)))).
  - destruct fact.
    + rewrite prodn_inv by (intros; apply lt_0_INR; lia). rewrite prodn_const. reflexivity.
    + rewrite prodn_inv; [reflexivity|]. destruct (slate_fits _ _ _ _ Hs) as [He|E]; [|lia]. cbn [enough] in He. rewrite seq_length in He.
      intros j Hj. apply lt_0_INR. lia.
  - intros j Hj. unfold slot_prob. f_equal. rewrite <- left_after_total by lia. rewrite sum_list_const, Rmult_1_r. destruct fact.
    + f_equal. rewrite left_after_filter. cbn [orb]. replace (filter (fun _ => true) (seq 0 K)) with (seq 0 K); [apply seq_length|].
      generalize (seq 0 K). induction l as [|x l IH]; cbn [filter]; congruence.
    + f_equal. apply left_after_length; auto. lia.
Qed.

Lemma repeat_flat {A} (x : A) n L : repeat x (n * L) = flat n L (fun _ _ => x).
Proof. unfold flat. rewrite concat_tab. apply repeat_is_tab. Qed.
Lemma concat_repeat_flat {A} n L (f : nat -> A) : concat (repeat (tab L f) n) = flat n L (fun _ j => f j).
Proof. unfold flat. f_equal. apply repeat_is_tab. Qed.
Lemma flat_ext {A} n L (f g : nat -> nat -> A) : (forall i j, (i < n)%nat -> (j < L)%nat -> f i j = g i j) -> flat n L f = flat n L g.
Proof. intros H. unfold flat. f_equal. apply tab_ext. intros i Hi. apply tab_ext. auto. Qed.

Lemma random_pscores_flat d n : (sd_fact d = false -> (sd_L d <= sd_K d)%nat) -> random_pscores d n =
  mkPs (flat n (sd_L d) (fun _ _ => uniform_prob (sd_fact d) (sd_K d) (sd_L d)))
       (Some (flat n (sd_L d) (fun _ _ => 1 / INR (sd_K d))))
       (flat n (sd_L d) (fun _ j => uniform_prob (sd_fact d) (sd_K d) (S j))).
Proof.
  intros Hfit. unfold random_pscores, uniform_prob. cbv zeta. rewrite !repeat_flat. f_equal.
  - apply flat_ext. intros _ _ _ _. destruct (sd_fact d); [reflexivity|]. rewrite perm_count_prodn. reflexivity.
  - destruct (sd_fact d).
    + rewrite (repeat_is_tab (1 / INR (sd_K d)) (sd_L d)), cumprod_tab, concat_repeat_flat. apply flat_ext. intros _ j _ _. rewrite prodn_const, Rmult_1_l.
      unfold Rdiv. rewrite !Rmult_1_l. apply pow_inv.
    + change (map (fun k => INR (sd_K d - k)) (seq 0 (sd_L d))) with (tab (sd_L d) (fun k => INR (sd_K d - k))).
      rewrite cumprod_tab, map_tab, concat_repeat_flat. apply flat_ext. intros _ j _ _. rewrite Rmult_1_l. reflexivity.
Qed.

Lemma forallb_ext_in {A} (p q : A -> bool) l : (forall x, In x l -> p x = q x) -> forallb p l = forallb q l.
Proof. induction l as [|x l IH]; intros H; [reflexivity|]. cbn [forallb]. rewrite (H x (or_introl eq_refl)), IH by (intros; apply H; right; assumption). reflexivity. Qed.
Lemma nth_repeat_lt {A} (x d : A) n k : (k < n)%nat -> nth k (repeat x n) d = x.
Proof. revert k. induction n as [|n IH]; intros k Hk; [lia|]. destruct k; [reflexivity|]. apply IH. lia. Qed.
Lemma forallb_map {A B} (f : A -> B) p l : forallb p (map f l) = forallb (fun x => p (f x)) l.
Proof. induction l as [|x l IH]; [reflexivity|]. cbn [map forallb]. rewrite IH. reflexivity. Qed.

(** ** The random policy *)
Theorem C111_random : forall argsort d base context action eps (s : nat -> list nat) (all : list (list nat)),
  (1 <= sd_L d)%nat -> (forall i, (i < length context)%nat -> slate_of (sd_fact d) (sd_K d) (sd_L d) (s i)) ->
  enumerates all (slate_of (sd_fact d) (sd_K d) (sd_L d)) -> (sd_fact d = false -> (sd_L d <= sd_K d)%nat) ->
  exists ps, generate_pscore argsort d "random" base context action eps = Ok ps /\
    ps_joint ps = flat (length context) (sd_L d) (fun i _ => ranking_prob (sd_fact d) (sd_K d) (fun _ => 1) (slots (s i)) (sd_L d)) /\
    ps_cascade ps = flat (length context) (sd_L d) (fun i j => ranking_prob (sd_fact d) (sd_K d) (fun _ => 1) (slots (s i)) (S j)) /\
    ps_item ps = Some (flat (length context) (sd_L d) (fun i j => item_prob (sd_fact d) (sd_K d) (sd_L d) (fun _ => 1) all j (nth j (s i) 0%nat))).
Proof.
  intros argsort d base context action eps s all HL Hs He Hfit. unfold generate_pscore. cbn [String.eqb Ascii.eqb Bool.eqb orb negb raise_if bind].
  eexists. split; [reflexivity|]. rewrite random_pscores_flat by exact Hfit. cbn [ps_joint ps_cascade ps_item]. split; [|split].
  - apply flat_ext. intros i j Hi Hj. symmetry. apply (ranking_uniform _ _ (sd_L d)); auto.
  - apply flat_ext. intros i j Hi Hj. symmetry. apply (ranking_uniform _ _ (sd_L d)); auto.
  - f_equal. apply flat_ext. intros i j Hi Hj. symmetry. apply C62_uniform_slot; auto; [lra|].
    destruct (Hs i Hi) as (Hl & HK & _). apply HK, nth_In. lia.
Qed.

(** ** Epsilon-greedy policies *)
(** [T] are [L] of the [K] actions with the smallest (largest) values, in increasing order of their values. *)
Definition lowest (K L : nat) (E : nat -> R) (T : list nat) : Prop :=
  slate_of false K L T /\ StronglySorted (fun a b => E a <= E b) T /\ forall a b, In a T -> (b < K)%nat -> ~ In b T -> E a <= E b.
Definition highest (K L : nat) (E : nat -> R) (T : list nat) : Prop :=
  slate_of false K L T /\ StronglySorted (fun a b => E a <= E b) T /\ forall a b, In a T -> (b < K)%nat -> ~ In b T -> E b <= E a.
(** Plays a target with probability 1 - eps, otherwise something of probability [p]. *)
Definition mixed (eps : R) {P Q : Prop} (hit : {P} + {Q}) (p : R) : R := (1 - eps) * (if hit then 1 else 0) + eps * p.

Lemma SSorted_ext {A} (R1 R2 : A -> A -> Prop) l : (forall a b, In a l -> In b l -> R1 a b -> R2 a b) -> StronglySorted R1 l -> StronglySorted R2 l.
Proof.
  intros H Hs. induction Hs as [|a l Hs IH Hall]; constructor.
  - apply IH. intros; apply H; simpl; auto.
  - rewrite List.Forall_forall in *. intros b Hb. apply H; simpl; auto.
Qed.
Lemma SSorted_left {A} (R : A -> A -> Prop) l1 l2 : StronglySorted R (l1 ++ l2) -> StronglySorted R l1.
Proof.
  induction l1 as [|a l1 IH]; intros H; [constructor|]. cbn [app] in H. inversion H as [|? ? Hs Hall]; subst. constructor; auto.
  rewrite List.Forall_forall in *. intros b Hb. apply Hall, in_or_app. auto.
Qed.
Lemma SSorted_right {A} (R : A -> A -> Prop) l1 l2 : StronglySorted R (l1 ++ l2) -> StronglySorted R l2.
Proof. induction l1 as [|a l1 IH]; intros H; [exact H|]. inversion H; auto. Qed.

Lemma argsort_split argsort K (E : nat -> R) m : sorts argsort -> (m <= K)%nat ->
  let l := argsort (tab K E) in
  lowest K m E (firstn m l) /\ highest K (K - m) E (skipn m l) /\ length l = K.
Proof.
  intros Hs Hm l. destruct (Hs (tab K E)) as [Hp Hso]. fold l in Hp, Hso. rewrite tab_length in Hp.
  assert (Hlen : length l = K) by (rewrite (Permutation_length Hp), seq_length; reflexivity).
  assert (Hnd : NoDup l) by (apply (Permutation_NoDup (Permutation_sym Hp)), seq_NoDup).
  assert (HK : forall a, In a l <-> (a < K)%nat).
  { intros a. split; intros H; [apply (Permutation_in _ Hp), in_seq in H; lia|apply (Permutation_in _ (Permutation_sym Hp)), in_seq; lia]. }
  assert (Hso' : StronglySorted (fun a b => E a <= E b) l).
  { revert Hso. apply SSorted_ext. intros a b Ha Hb H. rewrite !nth_tab in H by (apply HK; assumption). exact H. }
  clearbody l.
  assert (Hsplit : l = firstn m l ++ skipn m l) by (symmetry; apply firstn_skipn).
  assert (Hcross : forall a b, In a (firstn m l) -> In b (skipn m l) -> E a <= E b) by (rewrite Hsplit in Hso'; exact (SSorted_app_inv _ _ _ Hso')).
  assert (Hin : forall a, (a < K)%nat -> In a (firstn m l) \/ In a (skipn m l)) by (intros a Ha; apply in_app_or; rewrite <- Hsplit; apply HK, Ha).
  split; [|split; [|exact Hlen]].
  - split; [|split].
    + split; [rewrite firstn_length; lia|]. split; [intros a Ha; apply HK; rewrite Hsplit; apply in_or_app; auto|].
      intros _. rewrite Hsplit in Hnd. apply NoDup_app_left in Hnd. exact Hnd.
    + rewrite Hsplit in Hso'. apply SSorted_left in Hso'. exact Hso'.
    + intros a b Ha Hb Hnb. destruct (Hin b Hb); [contradiction|]. auto.
  - split; [|split].
    + split; [rewrite skipn_length; lia|]. split; [intros a Ha; apply HK; rewrite Hsplit; apply in_or_app; auto|].
      intros _. rewrite Hsplit in Hnd. clear -Hnd. induction (firstn m l) as [|x r IH]; [exact Hnd|]. inversion Hnd; auto.
    + rewrite Hsplit in Hso'. apply SSorted_right in Hso'. exact Hso'.
    + intros a b Ha Hb Hnb. destruct (Hin b Hb); [|contradiction]. auto.
Qed.

Lemma mix_flat eps n L f g : mix eps (flat n L f) (flat n L g) = flat n L (fun i j => f i j * (1 - eps) + eps * g i j).
Proof. unfold mix, flat. rewrite !concat_tab, combine_tab, map_tab. reflexivity. Qed.

Lemma prodn_b2r k m : prodn k (fun j => b2r (m j)) = b2r (forallb m (seq 0 k)).
Proof.
  induction k as [|k IH]; [reflexivity|]. rewrite seq_S, forallb_app. cbn [prodn forallb Nat.add]. rewrite IH, andb_true_r.
  destruct (forallb m (seq 0 k)), (m k); simpl; ring.
Qed.
Lemma match_prefix (s T : list nat) k : (k <= length s)%nat -> (k <= length T)%nat ->
  (forallb (fun j => Nat.eqb (nth j T 0%nat) (nth j s 0%nat)) (seq 0 k) = true <-> firstn k s = firstn k T).
Proof.
  intros Hs HT. induction k as [|k IH]; [split; reflexivity|]. rewrite seq_S, forallb_app. cbn [forallb Nat.add]. rewrite andb_true_r, andb_true_iff.
  rewrite IH by lia. rewrite Nat.eqb_eq. rewrite !(firstn_snoc _ k 0%nat) by lia. split.
  - intros [-> ->]. reflexivity.
  - intros E. apply app_inj_tail in E as [E1 E2]. auto.
Qed.

Lemma epsilon_generic argsort d (opt : bool) f context n E (s : nat -> list nat) eps (T : nat -> list nat) (m : nat -> nat -> bool) :
  length context = n -> f context = tabR2 n (sd_K d) E -> (1 <= n)%nat -> (1 <= sd_L d)%nat -> 0 <= eps <= 1 ->
  (sd_fact d = false -> (sd_L d <= sd_K d)%nat) ->
  (forall i, (i < n)%nat -> slate_of (sd_fact d) (sd_K d) (sd_L d) (s i)) ->
  (forall i, (i < n)%nat -> T i = if opt then firstn (sd_L d) (argsort (tab (sd_K d) (E i)))
                                  else skipn (length (argsort (tab (sd_K d) (E i))) - sd_L d) (argsort (tab (sd_K d) (E i)))) ->
  (forall i, (i < n)%nat -> sd_fact d = false -> length (T i) = sd_L d) ->
  (forall i j, (i < n)%nat -> (j < sd_L d)%nat -> m i j = Nat.eqb (nth (if sd_fact d then 0 else j) (T i) 0%nat) (nth j (s i) 0%nat)) ->
  generate_pscore argsort d (if opt then "optimal" else "anti-optimal")%string (Some f) context (logged n s) eps =
  Ok (mkPs (flat n (sd_L d) (fun i _ => b2r (forallb (m i) (seq 0 (sd_L d))) * (1 - eps) + eps * uniform_prob (sd_fact d) (sd_K d) (sd_L d)))
           (Some (flat n (sd_L d) (fun i j => b2r (m i j) * (1 - eps) + eps * (1 / INR (sd_K d)))))
           (flat n (sd_L d) (fun i j => b2r (forallb (m i) (seq 0 (S j))) * (1 - eps) + eps * uniform_prob (sd_fact d) (sd_K d) (S j)))).
Proof.
  intros Hlen Hf Hn HL Heps Hfit Hs HT HTl Hm. unfold generate_pscore. rewrite Hlen.
  assert (HlenZ : forall i, (i < n)%nat -> length (map Z.of_nat (s i)) = sd_L d) by (intros i Hi; rewrite map_length; apply Hs, Hi).
  assert (Hll : length (logged n s) = (n * sd_L d)%nat) by (apply concat_tab_length, HlenZ).
  assert (Ech : chunks n (sd_L d) (logged n s) = tab n (fun i => map Z.of_nat (s i))) by (apply chunks_concat, HlenZ).
  assert (Hc : check_scalar (Fin eps) (Some (Fin 0)) (Some (Fin 1)) = Ok tt).
  { unfold check_scalar. cbn. rewrite (proj2 (Rltb_false _ _)) by lra. cbn. rewrite (proj2 (Rltb_false _ _)) by lra. reflexivity. }
  rewrite random_pscores_flat by exact Hfit.
  assert (Hsorted : (if opt then map (fun row => firstn (sd_L d) (argsort row)) (tabR2 n (sd_K d) E)
                     else map (fun row => let s := argsort row in skipn (length s - sd_L d) s) (tabR2 n (sd_K d) E)) = tab n T).
  { destruct opt; unfold tabR2; rewrite map_tab; apply tab_ext; intros i Hi; cbv zeta; symmetry; apply HT, Hi. }
  set (kind := (if opt then "optimal" else "anti-optimal")%string).
  assert (K1 : (kind =? "optimal")%string = opt) by (destruct opt; reflexivity).
  assert (K2 : (kind =? "anti-optimal")%string = negb opt) by (destruct opt; reflexivity).
  assert (K3 : (kind =? "random")%string = false) by (destruct opt; reflexivity).
  rewrite K1, K2, K3. replace (negb (opt || negb opt || false)) with false by (destruct opt; reflexivity). cbn [raise_if bind].
  rewrite Hf, Hll, Nat.eqb_refl. cbn [negb raise_if bind]. rewrite Hc. cbn [bind]. cbv zeta in Hsorted |- *. rewrite Hsorted, Ech.
  unfold epsilon_pscores. rewrite tab_length. rewrite (proj2 (Nat.eqb_neq n 0)) by lia. cbn [negb].
  assert (Hd : (negb (sd_fact d) && negb (forallb (fun x => Nat.eqb (length (distinct x)) (sd_L d)) (tab n (fun i => map Z.of_nat (s i))) && true))%bool = false).
  { destruct (sd_fact d) eqn:Ef; [reflexivity|]. cbn [negb andb]. apply negb_false_iff. rewrite andb_true_r. apply forallb_tab. intros i Hi.
    apply Nat.eqb_eq. unfold distinct. rewrite nodup_fixed_point; [apply HlenZ, Hi|].
    apply FinFun.Injective_map_NoDup; [intros x y; lia|]. apply (Hs i Hi). reflexivity. }
  rewrite Hd. cbn [raise_if bind]. rewrite combine_tab, map_tab. cbn [fst snd ps_joint ps_item ps_cascade].
  assert (Hfl : tab n (fun i => if sd_fact d then map (Z.eqb (Z.of_nat (nth 0 (T i) 0%nat))) (map Z.of_nat (s i))
                       else map (fun ba => Z.eqb (Z.of_nat (fst ba)) (snd ba)) (combine (T i) (map Z.of_nat (s i)))) = tab n (fun i => tab (sd_L d) (m i))).
  { apply tab_ext. intros i Hi. destruct (Hs i Hi) as (Hl & _).
    assert (Hz : forall a b : nat, Z.eqb (Z.of_nat a) (Z.of_nat b) = Nat.eqb a b).
    { intros a b. destruct (Nat.eqb_spec a b) as [->|Hne]; [apply Z.eqb_refl|apply Z.eqb_neq; lia]. }
    assert (Em : map Z.of_nat (s i) = tab (sd_L d) (fun j => Z.of_nat (nth j (s i) 0%nat))) by (rewrite (tab_eta (s i) 0%nat) at 1; rewrite Hl, map_tab; reflexivity).
    rewrite Em. destruct (sd_fact d) eqn:Ef.
    - rewrite map_tab. apply tab_ext. intros j Hj. rewrite Hz. symmetry. apply (Hm i j Hi Hj).
    - rewrite (tab_eta (T i) 0%nat) at 1. rewrite (HTl i Hi eq_refl). rewrite combine_tab, map_tab. apply tab_ext. intros j Hj. cbn [fst snd].
      rewrite Hz. symmetry. apply (Hm i j Hi Hj). }
  rewrite Hfl, !map_tab. f_equal. f_equal.
  - rewrite <- mix_flat. f_equal. unfold flat. f_equal. apply tab_ext. intros i Hi. rewrite <- repeat_is_tab. f_equal. f_equal.
    unfold tab. rewrite forallb_map. reflexivity.
  - f_equal. rewrite <- mix_flat. f_equal. unfold flat. f_equal. apply tab_ext. intros i Hi. rewrite map_tab. reflexivity.
  - rewrite <- mix_flat. f_equal. unfold flat. f_equal. apply tab_ext. intros i Hi. rewrite map_tab, cumprod_tab. apply tab_ext. intros j Hj.
    rewrite Rmult_1_l. apply prodn_b2r.
Qed.

Lemma b2r_dec {P Q : Prop} (h : {P} + {Q}) b eps p : (P -> ~ Q) -> (b = true <-> P) -> b2r b * (1 - eps) + eps * p = mixed eps h p.
Proof.
  intros Hx Hb. unfold mixed, b2r. destruct h as [h|h]; destruct b; try ring.
  - exfalso. apply Hb in h. discriminate.
  - exfalso. apply (Hx (proj1 Hb eq_refl) h).
Qed.

Theorem C63_optimal_plays_lowest : forall argsort d f context n E (s : nat -> list nat) eps,
  sorts argsort -> length context = n -> f context = tabR2 n (sd_K d) E -> (1 <= n)%nat -> (1 <= sd_L d <= sd_K d)%nat -> 0 <= eps <= 1 ->
  sd_fact d = false -> (forall i, (i < n)%nat -> slate_of false (sd_K d) (sd_L d) (s i)) ->
  forall opt : bool, exists T ps,
    generate_pscore argsort d (if opt then "optimal" else "anti-optimal")%string (Some f) context (logged n s) eps = Ok ps /\
    (forall i, (i < n)%nat -> if opt then lowest (sd_K d) (sd_L d) (E i) (T i) else highest (sd_K d) (sd_L d) (E i) (T i)) /\
    ps_joint ps = flat n (sd_L d) (fun i _ => mixed eps (list_eq_dec Nat.eq_dec (s i) (T i)) (ranking_prob false (sd_K d) (fun _ => 1) (slots (s i)) (sd_L d))) /\
    ps_cascade ps = flat n (sd_L d) (fun i j => mixed eps (list_eq_dec Nat.eq_dec (firstn (S j) (s i)) (firstn (S j) (T i))) (ranking_prob false (sd_K d) (fun _ => 1) (slots (s i)) (S j))) /\
    ps_item ps = Some (flat n (sd_L d) (fun i j => mixed eps (Nat.eq_dec (nth j (s i) 0%nat) (nth j (T i) 0%nat)) (1 / INR (sd_K d)))).
Proof.
  intros argsort d f context n E s eps Hsort Hlen Hf Hn HL Heps Hfact Hs opt.
  set (T := fun i => if opt then firstn (sd_L d) (argsort (tab (sd_K d) (E i))) else skipn (length (argsort (tab (sd_K d) (E i))) - sd_L d) (argsort (tab (sd_K d) (E i)))).
  assert (HT : forall i, if opt then lowest (sd_K d) (sd_L d) (E i) (T i) else highest (sd_K d) (sd_L d) (E i) (T i)).
  { intros i. unfold T. destruct opt.
    - apply (argsort_split argsort (sd_K d) (E i) (sd_L d) Hsort). lia.
    - destruct (argsort_split argsort (sd_K d) (E i) (sd_K d - sd_L d) Hsort ltac:(lia)) as (_ & H & Hl). cbv zeta in *.
      rewrite Hl. replace (sd_K d - (sd_K d - sd_L d))%nat with (sd_L d) in H by lia. exact H. }
  assert (HTl : forall i, length (T i) = sd_L d) by (intros i; specialize (HT i); destruct opt; destruct HT as ((Hl & _) & _); exact Hl).
  exists T. eexists. split.
  - apply (epsilon_generic argsort d opt f context n E s eps T (fun i j => Nat.eqb (nth j (T i) 0%nat) (nth j (s i) 0%nat))); auto; try lia.
    + rewrite Hfact. exact Hs.
    + intros i j Hi Hj. rewrite Hfact. reflexivity.
  - split; [intros i Hi; apply HT|]. cbn [ps_joint ps_cascade ps_item]. rewrite Hfact. split; [|split].
    + apply flat_ext. intros i j Hi Hj. rewrite (ranking_uniform false _ (sd_L d)) by (auto; lia). apply b2r_dec; [auto|].
      destruct (Hs i Hi) as (Hl & _). rewrite match_prefix by (rewrite ?HTl; lia). rewrite !firstn_all2 by (rewrite ?HTl; lia). reflexivity.
    + apply flat_ext. intros i j Hi Hj. rewrite (ranking_uniform false _ (sd_L d)) by (auto; lia). apply b2r_dec; [auto|].
      destruct (Hs i Hi) as (Hl & _). apply match_prefix; rewrite ?HTl; lia.
    + f_equal. apply flat_ext. intros i j Hi Hj. apply b2r_dec; [auto|]. rewrite Nat.eqb_eq. split; auto.
Qed.

(** So with eps = 0, 'optimal' puts all its mass on the slate of lowest base rewards, wherever the values are distinct. *)
Corollary C63_exchanged : forall argsort d f context n E (s : nat -> list nat) (i j : nat),
  sorts argsort -> length context = n -> f context = tabR2 n (sd_K d) E -> (1 <= n)%nat -> (1 <= sd_L d < sd_K d)%nat ->
  sd_fact d = false -> (forall i, (i < n)%nat -> slate_of false (sd_K d) (sd_L d) (s i)) ->
  (i < n)%nat -> (j < sd_L d)%nat -> (forall a, (a < sd_K d)%nat -> a <> nth j (s i) 0%nat -> E i a < E i (nth j (s i) 0%nat)) ->
  exists ps, generate_pscore argsort d "optimal" (Some f) context (logged n s) 0 = Ok ps /\ nth (i * sd_L d + j) (ps_joint ps) 0 = 0.
Proof.
  intros argsort d f context n E s i j Hsort Hlen Hf Hn HL Hfact Hs Hi Hj Hbest.
  destruct (C63_optimal_plays_lowest argsort d f context n E s 0 Hsort Hlen Hf Hn ltac:(lia) ltac:(lra) Hfact Hs true) as (T & ps & Eg & HT & Ej & _).
  exists ps. split; [exact Eg|]. rewrite Ej. unfold flat. rewrite concat_tab, nth_tab by nia.
  destruct (divmod_block i j (sd_L d) Hj) as [-> _]. unfold mixed. destruct (list_eq_dec Nat.eq_dec (s i) (T i)) as [E0|E0]; [|ring].
  exfalso. specialize (HT i Hi). cbn in HT. destruct HT as ((Hl & HK & Hnd) & _ & Hlow). specialize (Hnd eq_refl).
  assert (Hin : In (nth j (s i) 0%nat) (T i)) by (rewrite E0; apply nth_In; rewrite Hl; exact Hj).
  assert (Hex : exists b, (b < sd_K d)%nat /\ ~ In b (T i)).
  { destruct (existsb (fun b => negb (existsb (Nat.eqb b) (T i))) (seq 0 (sd_K d))) eqn:Ex.
    - apply existsb_exists in Ex as (b & Hb & Hnb). exists b. apply in_seq in Hb. split; [lia|]. intros Hbin. apply negb_true_iff in Hnb.
      assert (existsb (Nat.eqb b) (T i) = true) by (apply existsb_exists; exists b; split; [exact Hbin|apply Nat.eqb_refl]). congruence.
    - exfalso. assert (Hincl : incl (seq 0 (sd_K d)) (T i)).
      { intros b Hb. destruct (existsb (Nat.eqb b) (T i)) eqn:Eb; [apply existsb_exists in Eb as (x & Hx & Hxe); apply Nat.eqb_eq in Hxe; subst; exact Hx|].
        assert (existsb (fun b => negb (existsb (Nat.eqb b) (T i))) (seq 0 (sd_K d)) = true) by (apply existsb_exists; exists b; split; [exact Hb|rewrite Eb; reflexivity]). congruence. }
      pose proof (NoDup_incl_length (seq_NoDup (sd_K d) 0) Hincl) as Hc. rewrite seq_length, Hl in Hc. lia. }
  destruct Hex as (b & Hb & Hnb). pose proof (Hlow _ b Hin Hb Hnb). pose proof (Hbest b Hb). assert (b <> nth j (s i) 0%nat) by (intros ->; contradiction). specialize (H0 H1). lra.
Qed.

(** A factorizable policy repeats one action in all slots: the worst one for 'optimal'; for 'anti-optimal' the least of the
    len_list best, which is again the worst action when len_list >= n_unique_action. *)
Theorem C63_factorizable : forall argsort d f context n E (s : nat -> list nat) eps,
  sorts argsort -> length context = n -> f context = tabR2 n (sd_K d) E -> (1 <= n)%nat -> (1 <= sd_L d)%nat -> (1 <= sd_K d)%nat -> 0 <= eps <= 1 ->
  sd_fact d = true -> (forall i, (i < n)%nat -> slate_of true (sd_K d) (sd_L d) (s i)) ->
  forall opt : bool, exists b ps,
    generate_pscore argsort d (if opt then "optimal" else "anti-optimal")%string (Some f) context (logged n s) eps = Ok ps /\
    (forall i, (i < n)%nat -> (b i < sd_K d)%nat /\
       if (opt || Nat.leb (sd_K d) (sd_L d))%bool then forall a, (a < sd_K d)%nat -> E i (b i) <= E i a
       else exists T, highest (sd_K d) (sd_L d) (E i) T /\ In (b i) T /\ forall a, In a T -> E i (b i) <= E i a) /\
    ps_joint ps = flat n (sd_L d) (fun i _ => mixed eps (list_eq_dec Nat.eq_dec (s i) (repeat (b i) (sd_L d))) (ranking_prob true (sd_K d) (fun _ => 1) (slots (s i)) (sd_L d))) /\
    ps_cascade ps = flat n (sd_L d) (fun i j => mixed eps (list_eq_dec Nat.eq_dec (firstn (S j) (s i)) (repeat (b i) (S j))) (ranking_prob true (sd_K d) (fun _ => 1) (slots (s i)) (S j))) /\
    ps_item ps = Some (flat n (sd_L d) (fun i j => mixed eps (Nat.eq_dec (nth j (s i) 0%nat) (b i)) (1 / INR (sd_K d)))).
Proof.
  intros argsort d f context n E s eps Hsort Hlen Hf Hn HL HK Heps Hfact Hs opt.
  set (T := fun i => if opt then firstn (sd_L d) (argsort (tab (sd_K d) (E i))) else skipn (length (argsort (tab (sd_K d) (E i))) - sd_L d) (argsort (tab (sd_K d) (E i)))).
  exists (fun i => nth 0 (T i) 0%nat). eexists. split.
  - apply (epsilon_generic argsort d opt f context n E s eps T (fun i j => Nat.eqb (nth 0 (T i) 0%nat) (nth j (s i) 0%nat))); auto; try lia; try congruence.
    + rewrite Hfact. exact Hs.
    + intros i j Hi Hj. rewrite Hfact. reflexivity.
  - split; [|cbn [ps_joint ps_cascade ps_item]; rewrite Hfact; split; [|split]].
    + intros i Hi.
      assert (Hfirst : forall l K', lowest (sd_K d) K' (E i) l -> (0 < K')%nat -> (nth 0 l 0 < sd_K d)%nat /\ forall a, (a < sd_K d)%nat -> E i (nth 0 l 0%nat) <= E i a).
      { intros l K' ((Hl & Hr & _) & Hso & Hlo) HK'. destruct l as [|x l]; [simpl in Hl; lia|]. cbn [nth]. split; [apply Hr; left; reflexivity|].
        intros a Ha. destruct (in_dec Nat.eq_dec a (x :: l)) as [[->|Hin]|Hout]; [lra| |apply Hlo; auto; left; reflexivity].
        inversion Hso as [|? ? _ Hall]; subst. rewrite List.Forall_forall in Hall. apply Hall, Hin. }
      destruct (argsort_split argsort (sd_K d) (E i) (sd_K d) Hsort ltac:(lia)) as (Hlow & _ & Hlena). cbv zeta in Hlow.
      rewrite firstn_all2 in Hlow by lia.
      assert (H0 : forall m, (0 < m)%nat -> nth 0 (firstn m (argsort (tab (sd_K d) (E i)))) 0%nat = nth 0 (argsort (tab (sd_K d) (E i))) 0%nat) by (intros m Hm; destruct m; [lia|]; destruct (argsort (tab (sd_K d) (E i))); reflexivity).
      unfold T. destruct opt; cbn [orb].
      * rewrite H0 by lia. apply (Hfirst _ _ Hlow). lia.
      * rewrite Hlena. destruct (Nat.leb_spec (sd_K d) (sd_L d)) as [Hle|Hgt].
        -- replace (sd_K d - sd_L d)%nat with 0%nat by lia. cbn [skipn]. apply (Hfirst _ _ Hlow). lia.
        -- destruct (argsort_split argsort (sd_K d) (E i) (sd_K d - sd_L d) Hsort ltac:(lia)) as (_ & H & _). cbv zeta in H.
           replace (sd_K d - (sd_K d - sd_L d))%nat with (sd_L d) in H by lia.
           pose proof H as ((Hl & Hr & _) & Hso & _). remember (skipn (sd_K d - sd_L d) (argsort (tab (sd_K d) (E i)))) as l eqn:El.
           destruct l as [|x l]; [simpl in Hl; lia|]. cbn [nth]. split; [apply Hr; left; reflexivity|].
           exists (x :: l). split; [exact H|]. split; [left; reflexivity|]. intros a [->|Ha]; [lra|].
           inversion Hso as [|? ? _ Hall]; subst. rewrite List.Forall_forall in Hall. apply Hall, Ha.
    + apply flat_ext. intros i j Hi Hj. rewrite (ranking_uniform true _ (sd_L d)) by (auto; lia). apply b2r_dec; [auto|].
      destruct (Hs i Hi) as (Hl & _).
      assert (Q : forallb (fun j => Nat.eqb (nth 0 (T i) 0%nat) (nth j (s i) 0%nat)) (seq 0 (sd_L d)) = forallb (fun j => Nat.eqb (nth j (repeat (nth 0 (T i) 0%nat) (sd_L d)) 0%nat) (nth j (s i) 0%nat)) (seq 0 (sd_L d))).
      { apply forallb_ext_in. intros k Hk. apply in_seq in Hk. rewrite nth_repeat_lt by lia. reflexivity. }
      rewrite Q, match_prefix by (rewrite ?repeat_length; lia). rewrite !firstn_all2 by (rewrite ?repeat_length; lia). reflexivity.
    + apply flat_ext. intros i j Hi Hj. rewrite (ranking_uniform true _ (sd_L d)) by (auto; lia). apply b2r_dec; [auto|].
      destruct (Hs i Hi) as (Hl & _).
      assert (Q : forallb (fun j => Nat.eqb (nth 0 (T i) 0%nat) (nth j (s i) 0%nat)) (seq 0 (S j)) = forallb (fun k => Nat.eqb (nth k (repeat (nth 0 (T i) 0%nat) (S j)) 0%nat) (nth k (s i) 0%nat)) (seq 0 (S j))).
      { apply forallb_ext_in. intros k Hk. apply in_seq in Hk. rewrite nth_repeat_lt by lia. reflexivity. }
      rewrite Q, match_prefix by (rewrite ?repeat_length; lia). rewrite (firstn_all2 (repeat _ _)) by (rewrite ?repeat_length; lia). reflexivity.
    + f_equal. apply flat_ext. intros i j Hi Hj. apply b2r_dec; [auto|]. rewrite Nat.eqb_eq. split; auto.
Qed.

(** ** Rejected inputs *)
Theorem C111_rejects : forall argsort d kind base context action eps,
  let known := kind = "random"%string \/ kind = "optimal"%string \/ kind = "anti-optimal"%string in
  (~ known -> generate_pscore argsort d kind base context action eps = Err ValueError) /\
  (known -> kind <> "random"%string -> base = None -> generate_pscore argsort d kind base context action eps = Err TypeError) /\
  (known -> kind <> "random"%string -> base <> None -> length action <> (length context * sd_L d)%nat ->
     generate_pscore argsort d kind base context action eps = Err ValueError) /\
  (known -> kind <> "random"%string -> base <> None -> length action = (length context * sd_L d)%nat -> ~ 0 <= eps <= 1 ->
     generate_pscore argsort d kind base context action eps = Err ValueError) /\
  (known -> kind <> "random"%string -> base <> None -> length action = (length context * sd_L d)%nat -> 0 <= eps <= 1 -> sd_fact d = false ->
     (exists i row, nth_error (chunks (length context) (sd_L d) action) i = Some row /\ length row = sd_L d /\ ~ NoDup row) ->
     generate_pscore argsort d kind base context action eps = Err ValueError).
Proof.
  intros argsort d kind base context action eps known.
  assert (Hk : known -> negb ((kind =? "optimal")%string || (kind =? "anti-optimal")%string || (kind =? "random")%string) = false).
  { intros [-> | [-> | ->]]; reflexivity. }
  assert (Hr : kind <> "random"%string -> (kind =? "random")%string = false) by (intros H; apply String.eqb_neq, H).
  unfold generate_pscore. split; [|split; [|split; [|split]]].
  - intros Hn. destruct (String.eqb_spec kind "optimal") as [->|H1]; [exfalso; apply Hn; right; left; reflexivity|].
    destruct (String.eqb_spec kind "anti-optimal") as [->|H2]; [exfalso; apply Hn; right; right; reflexivity|].
    destruct (String.eqb_spec kind "random") as [->|H3]; [exfalso; apply Hn; left; reflexivity|]. reflexivity.
  - intros K1 K2 ->. rewrite (Hk K1), (Hr K2). reflexivity.
  - intros K1 K2 Hb Hl. rewrite (Hk K1), (Hr K2). destruct base as [f|]; [|congruence]. cbn [raise_if bind]. cbv zeta.
    rewrite (proj2 (Nat.eqb_neq _ _) Hl). reflexivity.
  - intros K1 K2 Hb Hl He. rewrite (Hk K1), (Hr K2). destruct base as [f|]; [|congruence]. cbn [raise_if bind]. cbv zeta.
    rewrite Hl, Nat.eqb_refl. cbn [negb raise_if bind].
    assert (Hc : check_scalar (Fin eps) (Some (Fin 0)) (Some (Fin 1)) = Err ValueError).
    { unfold check_scalar. cbn. destruct (Rltb eps 0) eqn:E1; cbn; [reflexivity|]. apply Rltb_false in E1.
      rewrite (proj2 (Rltb_true _ _)) by lra. reflexivity. }
    rewrite Hc. reflexivity.
  - intros K1 K2 Hb Hl He Hf (i & row & Hi & Hrl & Hnd). rewrite (Hk K1), (Hr K2). destruct base as [f|]; [|congruence]. cbn [raise_if bind]. cbv zeta.
    rewrite Hl, Nat.eqb_refl. cbn [negb raise_if bind].
    assert (Hc : check_scalar (Fin eps) (Some (Fin 0)) (Some (Fin 1)) = Ok tt).
    { unfold check_scalar. cbn. rewrite (proj2 (Rltb_false _ _)) by lra. cbn. rewrite (proj2 (Rltb_false _ _)) by lra. reflexivity. }
    rewrite Hc. cbn [bind]. unfold epsilon_pscores. rewrite Hf. cbn [negb andb].
    assert (Hall : forallb (fun x => Nat.eqb (length (distinct x)) (sd_L d)) (chunks (length context) (sd_L d) action) = false).
    { apply not_true_is_false. intros Ht. rewrite forallb_forall in Ht. specialize (Ht row (nth_error_In _ _ Hi)). apply Nat.eqb_eq in Ht.
      apply Hnd. assert (Hinc : incl (distinct row) row) by (intros x Hx; apply (distinct_In row x), Hx).
      apply (@NoDup_incl_NoDup _ (distinct row) row); [apply distinct_NoDup|lia|exact Hinc]. }
    rewrite Hall. reflexivity.
Qed.

(** ** Action distributions given the slate so far (C112) *)

(** The logits with every action already shown before slot [j] set to -10^4. *)
Definition masked (fact : bool) (lg : nat -> R) (s : nat -> nat) (j a : nat) : R := if may_show fact s j a then lg a else - 10 ^ 4.

Lemma mask_logits_tab K : forall (s : list nat) (j : nat) lg, (forall a, In a s -> (a < K)%nat) -> (j <= length s)%nat ->
  mask_logits (tab K lg) j (map Z.of_nat s) = Ok (tab K (masked false lg (slots s) j)).
Proof.
  induction s as [|a s IH]; intros j lg HK Hj.
  - cbn [length] in Hj. destruct j; [|lia]. cbn. f_equal.
  - destruct j as [|j]; [cbn; f_equal|]. cbn [map mask_logits]. rewrite tab_length, np_index_nat by (apply HK; left; reflexivity). cbn [bind].
    rewrite set_nth_tab by (apply HK; left; reflexivity). rewrite IH; [|intros; apply HK; right; assumption|simpl in Hj; lia].
    f_equal. apply tab_ext. intros b Hb. unfold masked, may_show. cbn [orb seq forallb]. rewrite <- seq_shift, forallb_map. cbn [nth].
    rewrite (Nat.eqb_sym a b). destruct (Nat.eqb_spec b a) as [->|Hne].
    + cbn [negb andb]. destruct (forallb _ (seq 0 j)); reflexivity.
    + cbn [negb andb]. reflexivity.
Qed.

Lemma concat_concat_tab {A} n (f : nat -> list (list A)) : concat (concat (tab n f)) = concat (tab n (fun i => concat (f i))).
Proof. unfold tab. induction (seq 0 n) as [|x l IH]; [reflexivity|]. cbn [map concat]. rewrite concat_app, IH. reflexivity. Qed.

Theorem C112_action_dist : forall d n (lg : nat -> nat -> R) (s : nat -> list nat), (1 <= n)%nat -> (1 <= sd_K d)%nat ->
  (forall i, (i < n)%nat -> length (s i) = sd_L d /\ forall a, In a (s i) -> (a < sd_K d)%nat) ->
  eval_action_dist d (logged n s) (tabR2 n (sd_K d) lg) =
  Ok (flat3 n (sd_L d) (sd_K d) (fun i j a => exp (masked (sd_fact d) (lg i) (slots (s i)) j a) /
                                              sumn (sd_K d) (fun b => exp (masked (sd_fact d) (lg i) (slots (s i)) j b)))).
Proof.
  intros d n lg s Hn HK Hs. unfold eval_action_dist.
  assert (HlenZ : forall i, (i < n)%nat -> length (map Z.of_nat (s i)) = sd_L d) by (intros i Hi; rewrite map_length; apply Hs, Hi).
  assert (Hll : length (logged n s) = (n * sd_L d)%nat) by (apply concat_tab_length, HlenZ).
  assert (Ech : chunks n (sd_L d) (logged n s) = tab n (fun i => map Z.of_nat (s i))) by (apply chunks_concat, HlenZ).
  unfold tabR2 at 1. rewrite nth_tab, tab_length, Nat.eqb_refl by lia. cbn [negb raise_if bind].
  unfold tabR2 at 1. rewrite tab_length, Hll, Nat.eqb_refl. cbn [negb raise_if bind]. unfold tabR2. rewrite tab_length, Ech, combine_tab.
  assert (Esm : forall f : nat -> R, softmax_row (tab (sd_K d) f) = tab (sd_K d) (fun a => exp (f a) / sumn (sd_K d) (fun b => exp (f b)))).
  { intros f. rewrite softmax_row_formula by (intros E; apply (f_equal (@length R)) in E; rewrite tab_length in E; simpl in E; lia).
    rewrite map_tab, map_tab, Rsum_tab. reflexivity. }
  rewrite (mapM_tab n _ _ (fun i => tab (sd_L d) (fun j => tab (sd_K d) (fun a => exp (masked (sd_fact d) (lg i) (slots (s i)) j a) /
                                              sumn (sd_K d) (fun b => exp (masked (sd_fact d) (lg i) (slots (s i)) j b)))))).
  - cbn [bind]. f_equal. unfold flat3. apply concat_concat_tab.
  - intros i Hi. cbn [fst snd]. replace (seq 0 (sd_L d)) with (tab (sd_L d) (fun i => i)) by (unfold tab; apply map_id).
    apply (mapM_tab (sd_L d) (fun i => i) _ (fun j => tab (sd_K d) (fun a => exp (masked (sd_fact d) (lg i) (slots (s i)) j a) /
                                              sumn (sd_K d) (fun b => exp (masked (sd_fact d) (lg i) (slots (s i)) j b))))).
    intros j Hj. destruct (Hs i Hi) as [Hl Ha]. destruct (sd_fact d).
    + cbn [bind]. rewrite Esm. reflexivity.
    + rewrite mask_logits_tab by (auto; lia). cbn [bind]. rewrite Esm. reflexivity.
Qed.

(** The choice probabilities of the policy at slot [j], given the slots before, and those that [calc_evaluation_policy_action_dist]
    returns (C112_action_dist). *)
Definition exact_choice (fact : bool) (K : nat) (lg : nat -> R) (s : nat -> nat) (j a : nat) : R :=
  if may_show fact s j a then exp (lg a) / weight_below fact (fun b => exp (lg b)) s j K else 0.
Definition masked_choice (fact : bool) (K : nat) (lg : nat -> R) (s : nat -> nat) (j a : nat) : R :=
  exp (masked fact lg s j a) / sumn K (fun b => exp (masked fact lg s j b)).

Lemma masked_total fact K lg s j : sumn K (fun b => exp (masked fact lg s j b)) =
  weight_below fact (fun b => exp (lg b)) s j K + exp (- 10 ^ 4) * sumn K (fun b => if may_show fact s j b then 0 else 1).
Proof.
  unfold weight_below. rewrite <- sumn_scal, <- sumn_plus. apply sumn_ext. intros b Hb. unfold masked. destruct (may_show fact s j b); ring.
Qed.
Lemma used_count fact K s j : 0 <= sumn K (fun b => if may_show fact s j b then 0 else 1) <= INR j.
Proof.
  split; [apply sumn_nonneg; intros; destruct (may_show fact s j i); lra|].
  unfold may_show. destruct fact; [rewrite sumn_zero by reflexivity; apply pos_INR|]. cbn [orb].
  induction j as [|j IH].
  - rewrite sumn_zero by reflexivity. simpl. lra.
  - rewrite S_INR. eapply Rle_trans; [|apply Rplus_le_compat_r, IH].
    apply Rle_trans with (sumn K (fun b => (if forallb (fun i => negb (Nat.eqb (s i) b)) (seq 0 j) then 0 else 1) + (if Nat.eqb b (s j) then 1 else 0))).
    + apply sumn_le. intros b Hb. rewrite seq_S, forallb_app. cbn [forallb Nat.add]. rewrite andb_true_r, (Nat.eqb_sym b (s j)).
      destruct (forallb _ _); destruct (Nat.eqb (s j) b); cbn [negb andb]; lra.
    + rewrite sumn_plus. apply Rplus_le_compat_l.
      clear. induction K as [|K IH]; cbn [sumn]; [lra|]. destruct (Nat.eqb_spec K (s j)) as [E|E].
      * rewrite sumn_zero; [lra|]. intros b Hb. rewrite (proj2 (Nat.eqb_neq b (s j))) by lia. reflexivity.
      * lra.
Qed.

Lemma sum_exp_pos K (f : nat -> R) : (1 <= K)%nat -> 0 < sumn K (fun b => exp (f b)).
Proof. intros HK. apply (sumn_pos K _ 0); [intros; left; apply exp_pos|lia|apply exp_pos]. Qed.

Theorem C112_distribution : forall fact K lg s j, (1 <= K)%nat ->
  (forall a, 0 < masked_choice fact K lg s j a) /\ sumn K (masked_choice fact K lg s j) = 1.
Proof.
  intros fact K lg s j HK. assert (Hp : 0 < sumn K (fun b => exp (masked fact lg s j b))) by (apply sum_exp_pos; lia).
  split; [intros a; apply Rdiv_lt_0_compat; [apply exp_pos|exact Hp]|].
  unfold masked_choice. rewrite sumn_div. field. lra.
Qed.

(** Actions still available get at most, and up to the factor shown at least, their probability under the policy; shown ones get almost
    nothing when some remaining logit is well above -10^4. *)
Theorem C112_close : forall fact K lg s j a, (a < K)%nat ->
  let W := weight_below fact (fun b => exp (lg b)) s j K in
  (exists b, (b < K)%nat /\ may_show fact s j b = true) ->
  0 < W /\
  (may_show fact s j a = true ->
     exact_choice fact K lg s j a * (1 - INR j * exp (- 10 ^ 4) / W) <= masked_choice fact K lg s j a <= exact_choice fact K lg s j a) /\
  (may_show fact s j a = false -> 0 < masked_choice fact K lg s j a <= exp (- 10 ^ 4) / W) /\
  (fact = true \/ j = 0%nat -> masked_choice fact K lg s j a = exact_choice fact K lg s j a).
Proof.
  intros fact K lg s j a Ha W (b & Hb & Hmb).
  assert (HW : 0 < W).
  { unfold W, weight_below. apply (sumn_pos K _ b); [|exact Hb|rewrite Hmb; apply exp_pos].
    intros c Hc. destruct (may_show fact s j c); [left; apply exp_pos|lra]. }
  destruct (used_count fact K s j) as [U0 U1]. set (U := sumn K (fun b => if may_show fact s j b then 0 else 1)) in *.
  pose proof (exp_pos (- 10 ^ 4)) as He.
  assert (HT : sumn K (fun b => exp (masked fact lg s j b)) = W + exp (- 10 ^ 4) * U) by apply masked_total.
  assert (HeU : 0 <= exp (- 10 ^ 4) * U) by (apply Rmult_le_pos; lra).
  split; [exact HW|]. split; [|split].
  - intros Hma. unfold masked_choice. rewrite HT. unfold exact_choice, masked. rewrite Hma. fold W. pose proof (exp_pos (lg a)) as Hla.
    set (e := exp (- 10 ^ 4)) in *. split.
    + apply Rle_trans with (exp (lg a) / W * (1 - U * e / W)).
      * apply Rmult_le_compat_l; [left; apply Rdiv_lt_0_compat; assumption|].
        assert (U * e / W <= INR j * e / W). { unfold Rdiv. apply Rmult_le_compat_r; [left; apply Rinv_0_lt_compat, HW|]. apply Rmult_le_compat_r; lra. }
        lra.
      * assert (Hx : exp (lg a) / (W + e * U) - exp (lg a) / W * (1 - U * e / W) = exp (lg a) * (U * e) * (U * e) / (W * W * (W + e * U))) by (field; lra).
        assert (0 <= exp (lg a) * (U * e) * (U * e) / (W * W * (W + e * U))).
        { apply Rmult_le_pos; [|left; apply Rinv_0_lt_compat; repeat apply Rmult_lt_0_compat; lra].
          apply Rmult_le_pos; [apply Rmult_le_pos; [lra|]|]; rewrite Rmult_comm; exact HeU. }
        lra.
    + unfold Rdiv. apply Rmult_le_compat_l; [lra|]. apply Rinv_le_contravar; lra.
  - intros Hma. split; [apply C112_distribution; lia|]. unfold masked_choice. rewrite HT. unfold masked at 1. rewrite Hma.
    unfold Rdiv. apply Rmult_le_compat_l; [lra|]. apply Rinv_le_contravar; lra.
  - intros Hc. assert (Hall : forall c, may_show fact s j c = true) by (intros c; destruct Hc as [->| ->]; unfold may_show; [reflexivity|cbn; apply orb_true_r]).
    assert (HU : U = 0) by (unfold U; apply sumn_zero; intros c _; rewrite Hall; reflexivity).
    unfold masked_choice, exact_choice. rewrite HT, HU, Rmult_0_r, Rplus_0_r. unfold masked. rewrite Hall. reflexivity.
Qed.

(** ... but with logits below -10^4 an action already shown is preferred to the remaining ones. *)
Theorem C112_low_logits : forall K lg s j a b, (a < K)%nat -> (b < K)%nat -> may_show false s j a = false -> may_show false s j b = true -> lg b < - 10 ^ 4 ->
  masked_choice false K lg s j b < masked_choice false K lg s j a /\ exact_choice false K lg s j a = 0.
Proof.
  intros K lg s j a b Ha Hb Hma Hmb Hl. unfold masked_choice, exact_choice. rewrite Hma. split; [|reflexivity].
  apply Rmult_lt_compat_r; [apply Rinv_0_lt_compat, sum_exp_pos; lia|]. unfold masked. rewrite Hma, Hmb. apply exp_increasing, Hl.
Qed.

(** ** The linear behaviour policy (C113) *)
Lemma softmax_common (c : R) (f : nat -> R) K : (1 <= K)%nat -> forall a,
  exp (c + f a) / sumn K (fun b => exp (c + f b)) = exp (f a) / sumn K (fun b => exp (f b)).
Proof.
  intros HK a. rewrite (sumn_ext K (fun b => exp (c + f b)) (fun b => exp c * exp (f b))) by (intros; apply exp_plus).
  rewrite sumn_scal, exp_plus. pose proof (exp_pos c). assert (0 < sumn K (fun b => exp (f b))) by (apply sum_exp_pos; lia). field. lra.
Qed.

Lemma check_nonneg tau : 0 <= tau -> check_scalar (Fin tau) (Some (Fin 0)) None = Ok tt.
Proof. intros H. unfold check_scalar. cbn. rewrite (proj2 (Rltb_false _ _)) by lra. reflexivity. Qed.

Theorem C113_values : forall context action_context coef acoef tau, 0 < tau ->
  linear_logits context action_context coef acoef tau =
  Ok (map (fun x => map (fun a => Fin ((rdot x coef + rdot a acoef) / tau)) action_context) context).
Proof.
  intros context ac coef acoef tau Ht. unfold linear_logits. rewrite check_nonneg by lra. cbn [bind]. f_equal.
  apply map_ext. intros x. apply map_ext. intros a. rewrite ndiv_Fin by lra. reflexivity.
Qed.
Theorem C113_rejects : forall context action_context coef acoef tau, tau < 0 -> linear_logits context action_context coef acoef tau = Err ValueError.
Proof. intros. unfold linear_logits, check_scalar. cbn. rewrite (proj2 (Rltb_true _ _)) by lra. reflexivity. Qed.

(** The context enters every action's logit by the same amount: rankings are drawn with the same probabilities in all contexts. *)
Lemma ranking_common fact K c (f : nat -> R) s k : ranking_prob fact K (fun a => exp (c + f a)) s k = ranking_prob fact K (fun a => exp (f a)) s k.
Proof.
  unfold ranking_prob. apply prodn_ext. intros j Hj. unfold slot_prob, weight_below.
  rewrite (sumn_ext K (fun b => if may_show fact s j b then exp (c + f b) else 0) (fun b => exp c * (if may_show fact s j b then exp (f b) else 0))).
  - rewrite sumn_scal, exp_plus. pose proof (exp_pos c) as Hc. destruct (Req_dec (sumn K (fun b => if may_show fact s j b then exp (f b) else 0)) 0) as [E|E].
    + rewrite E, Rmult_0_r. unfold Rdiv. rewrite Rinv_0. ring.
    + field. split; lra.
  - intros b Hb. destruct (may_show fact s j b); [apply exp_plus|ring].
Qed.

Theorem C113_context_free : forall context action_context coef acoef tau, 0 < tau ->
  exists m, linear_logits context action_context coef acoef tau = Ok (map (map Fin) m) /\ length m = length context /\
    forall i fact s k, (i < length context)%nat -> (forall j, (j < k)%nat -> (s j < length action_context)%nat) ->
      ranking_prob fact (length action_context) (fun a => exp (nth a (nth i m []) 0)) s k =
      ranking_prob fact (length action_context) (fun a => exp (rdot (nth a action_context []) acoef / tau)) s k.
Proof.
  intros context ac coef acoef tau Ht.
  exists (map (fun x => map (fun a => (rdot x coef + rdot a acoef) / tau) ac) context).
  split; [rewrite C113_values by exact Ht; f_equal; rewrite map_map; apply map_ext; intros x; rewrite map_map; reflexivity|].
  split; [apply map_length|]. intros i fact s k Hi Hs.
  rewrite <- (ranking_common fact (length ac) (rdot (nth i context []) coef / tau) (fun a => rdot (nth a ac []) acoef / tau)).
  assert (E : forall a, (a < length ac)%nat -> exp (nth a (nth i (map (fun x => map (fun a => (rdot x coef + rdot a acoef) / tau) ac) context) []) 0) =
                        exp (rdot (nth i context []) coef / tau + rdot (nth a ac []) acoef / tau)).
  { intros a Ha. rewrite (nth_indep _ [] ((fun x => map (fun a => (rdot x coef + rdot a acoef) / tau) ac) [])) by (rewrite map_length; exact Hi).
    rewrite (map_nth (fun x => map (fun a => (rdot x coef + rdot a acoef) / tau) ac)).
    rewrite (nth_indep _ 0 ((fun a => (rdot (nth i context []) coef + rdot a acoef) / tau) [])) by (rewrite map_length; exact Ha).
    rewrite (map_nth (fun a => (rdot (nth i context []) coef + rdot a acoef) / tau)). f_equal. field. lra. }
  apply prodn_ext. intros j Hj. unfold slot_prob, weight_below. cbv beta. rewrite E by (apply Hs, Hj). f_equal. apply sumn_ext. intros b Hb.
  cbv beta. rewrite E by exact Hb. reflexivity.
Qed.

(** tau = 0 passes validation and makes every logit infinite or NaN. *)
Theorem C113_zero_tau : forall context action_context coef acoef,
  exists m, linear_logits context action_context coef acoef 0 = Ok m /\
    forall row v, In row m -> In v row -> forall r, v <> Fin r.
Proof.
  intros context ac coef acoef. unfold linear_logits. rewrite check_nonneg by lra. cbn [bind]. eexists. split; [reflexivity|].
  intros row v Hrow Hv r. apply in_map_iff in Hrow as (x & <- & _). apply in_map_iff in Hv as (a & <- & _).
  unfold ndiv. rewrite (proj2 (Reqb_true 0 0) eq_refl). unfold inf_sign. repeat match goal with |- context [if ?b then _ else _] => destruct b end; discriminate.
Qed.

(** ** Examples meeting the hypotheses *)
Example C63_example :
  let d := mkSd 3 2 1 true Independent [1; 1] [1; 1] [[0; 0]; [0; 0]] false in
  let E := fun (i a : nat) => match a with O => 1 / 10 | 1%nat => 1 / 2 | _ => 9 / 10 end in
  sorts insertion_argsort /\ (1 <= sd_L d < sd_K d)%nat /\
  slate_of false (sd_K d) (sd_L d) [2; 1]%nat /\ lowest 3 2 (E 0%nat) [0; 1]%nat /\ highest 3 2 (E 0%nat) [1; 2]%nat /\
  (forall a, (a < sd_K d)%nat -> a <> 2%nat -> E 0%nat a < E 0%nat 2%nat).
Proof.
  cbv zeta. split; [apply insertion_argsort_sorts|]. split; [simpl; lia|].
  assert (Hsl : forall a b, (a < 3)%nat -> (b < 3)%nat -> a <> b -> slate_of false 3 2 [a; b]).
  { intros a b Ha Hb Hab. split; [reflexivity|split; [intros c Hc; simpl in Hc; intuition lia|intros _; repeat constructor; simpl; intuition lia]]. }
  split; [apply Hsl; lia|]. split; [|split].
  - split; [apply Hsl; lia|]. split; [constructor; [constructor; constructor|constructor; [cbn; lra|constructor]]|]. intros a b Ha Hb Hnb. destruct b as [|[|[|b]]]; [| |simpl in Ha; destruct Ha as [<-|[<-|[]]]; lra|lia]; exfalso; apply Hnb; simpl; auto.
  - split; [apply Hsl; lia|]. split; [constructor; [constructor; constructor|constructor; [cbn; lra|constructor]]|]. intros a b Ha Hb Hnb. destruct b as [|[|[|b]]]; [simpl in Ha; destruct Ha as [<-|[<-|[]]]; lra| | |lia]; exfalso; apply Hnb; simpl; auto.
  - intros a Ha Hne. destruct a as [|[|[|a]]]; cbn in Ha |- *; try lia; lra.
Qed.
(** Slot 1 after action 0: action 0 may not be shown again, action 1 may. *)
Example C112_example : may_show false (slots [0; 1]%nat) 1 0 = false /\ may_show false (slots [0; 1]%nat) 1 1 = true /\ (-20000 < - 10 ^ 4).
Proof. split; [reflexivity|split; [reflexivity|lra]]. Qed.

Print Assumptions C63_optimal_plays_lowest.
Print Assumptions C63_exchanged.
Print Assumptions C63_factorizable.
Print Assumptions C111_random.
Print Assumptions C111_rejects.
Print Assumptions C112_action_dist.
Print Assumptions C112_distribution.
Print Assumptions C112_close.
Print Assumptions C112_low_logits.
Print Assumptions C113_values.
Print Assumptions C113_rejects.
Print Assumptions C113_context_free.
Print Assumptions C113_zero_tau.
