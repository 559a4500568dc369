(** * P_DataMC: the reduction of multi-class classification to a bandit problem (C61). *)

From Coq Require Import Reals List ZArith Lia Lra Bool Permutation.
From Verif Require Import Num NpList M_Utils M_Data S_Base S_Data S_Policy L_Num L_Base L_Utils L_Policy L_Examples L_Data P_Utils P_Data.
Import ListNotations.
Open Scope R_scope.

(** ** Dense ranks *)

Lemma distinct_NoDup l : NoDup (distinct l).
Proof. apply NoDup_nodup. Qed.
Lemma distinct_In l x : In x (distinct l) <-> In x l.
Proof. apply nodup_In. Qed.

(** The rank of a value: the number of distinct smaller values. *)
Definition rank_in (l : list Z) (v : Z) : nat := length (filter (fun w => Z.ltb w v) (distinct l)).

Lemma filter_incl_length {A} (p q : A -> bool) l : (forall x, In x l -> p x = true -> q x = true) -> (length (filter p l) <= length (filter q l))%nat.
Proof.
  induction l as [|x l IH]; intros H; cbn; [lia|]. specialize (IH ltac:(intros; apply H; cbn; auto)). destruct (p x) eqn:P.
  - rewrite (H x) by (cbn; auto). cbn. lia.
  - destruct (q x); cbn; lia.
Qed.
Lemma filter_strict_length {A} (p q : A -> bool) l x : (forall x, In x l -> p x = true -> q x = true) -> In x l -> p x = false -> q x = true ->
  (length (filter p l) < length (filter q l))%nat.
Proof.
  induction l as [|y l IH]; intros H Hx Px Qx; [destruct Hx|]. assert (HI := filter_incl_length p q l ltac:(intros; apply H; cbn; auto)). cbn.
  destruct Hx as [->|Hx].
  - rewrite Px, Qx. cbn. lia.
  - specialize (IH ltac:(intros; apply H; cbn; auto) Hx Px Qx). destruct (p y) eqn:P.
    + rewrite (H y) by (cbn; auto). cbn. lia.
    + destruct (q y); cbn; lia.
Qed.
Lemma rank_lt l v w : In v l -> (v < w)%Z -> (rank_in l v < rank_in l w)%nat.
Proof.
  intros Hv Hlt. unfold rank_in. apply (filter_strict_length _ _ _ v).
  - intros x _ H. apply Z.ltb_lt in H. apply Z.ltb_lt. lia.
  - apply distinct_In. auto.
  - apply Z.ltb_irrefl.
  - apply Z.ltb_lt. auto.
Qed.
Lemma rank_bound l v : In v l -> (rank_in l v < length (distinct l))%nat.
Proof.
  intros Hv. unfold rank_in. assert (E : forall k : list Z, filter (fun _ => true) k = k) by (induction k as [|x k IH]; cbn; [|rewrite IH]; reflexivity).
  rewrite <- (E (distinct l)) at 2. apply (filter_strict_length _ _ _ v); auto.
  - apply distinct_In. auto.
  - apply Z.ltb_irrefl.
Qed.

Lemma dense_rank_map y : dense_rank y = map (rank_in y) y.
Proof. reflexivity. Qed.

(** Labels 0 .. K-1, each of which occurs. *)
Definition proper_labels (n K : nat) (lab : nat -> nat) : Prop :=
  (forall i, (i < n)%nat -> (lab i < K)%nat) /\ (forall c, (c < K)%nat -> exists i, (i < n)%nat /\ lab i = c).

Lemma filter_perm_length {A} (p : A -> bool) l k : Permutation l k -> length (filter p l) = length (filter p k).
Proof.
  induction 1; cbn; auto; try congruence.
  - destruct (p x); cbn; auto.
  - destruct (p x), (p y); cbn; auto.
Qed.
Lemma proper_distinct n K lab : proper_labels n K lab -> Permutation (distinct (tabZ n lab)) (map Z.of_nat (seq 0 K)).
Proof.
  intros [H1 H2]. apply NoDup_Permutation.
  - apply distinct_NoDup.
  - apply FinFun.Injective_map_NoDup; [intros x y E; lia|apply seq_NoDup].
  - intros z. rewrite distinct_In, in_map_iff. unfold tabZ. split.
    + intros H. apply In_tab in H as (i & Hi & <-). exists (lab i). split; auto. apply in_seq. specialize (H1 i Hi). lia.
    + intros (c & <- & Hc). apply in_seq in Hc. destruct (H2 c ltac:(lia)) as (i & Hi & <-). apply In_tab. eauto.
Qed.
Lemma proper_rank n K lab i : proper_labels n K lab -> (i < n)%nat -> rank_in (tabZ n lab) (Z.of_nat (lab i)) = lab i.
Proof.
  intros H Hi. unfold rank_in. rewrite (filter_perm_length _ _ _ (proper_distinct n K lab H)). destruct H as [H1 _]. specialize (H1 i Hi).
  assert (E : forall m c, (c <= m)%nat -> length (filter (fun w => Z.ltb w (Z.of_nat c)) (map Z.of_nat (seq 0 m))) = c).
  { clear. intros m c Hc. replace m with (c + (m - c))%nat by lia. rewrite seq_app, map_app, filter_app, app_length.
    assert (A : forall l, (forall x, In x l -> (x < Z.of_nat c)%Z) -> filter (fun w => Z.ltb w (Z.of_nat c)) l = l).
    { induction l as [|x l IH]; intros Hl; cbn; [reflexivity|]. destruct (Z.ltb_spec x (Z.of_nat c)); [|specialize (Hl x (or_introl eq_refl)); lia]. rewrite IH; auto. intros; apply Hl; cbn; auto. }
    assert (B : forall l, (forall x, In x l -> (Z.of_nat c <= x)%Z) -> filter (fun w => Z.ltb w (Z.of_nat c)) l = []).
    { induction l as [|x l IH]; intros Hl; cbn; [reflexivity|]. destruct (Z.ltb_spec x (Z.of_nat c)); [specialize (Hl x (or_introl eq_refl)); lia|]. apply IH. intros; apply Hl; cbn; auto. }
    rewrite A, B.
    - rewrite map_length, seq_length. cbn. lia.
    - intros x Hx. apply in_map_iff in Hx as (j & <- & Hj). apply in_seq in Hj. lia.
    - intros x Hx. apply in_map_iff in Hx as (j & <- & Hj). apply in_seq in Hj. lia. }
  apply E. lia.
Qed.

(** ** The constructor *)

Definition one_hot (K c : nat) : list R := tab K (fun b => if Nat.eqb b c then 1 else 0).
Lemma set_one_hot K c : (c < K)%nat -> set_nth (repeat 0 K) c 1 = one_hot K c.
Proof. intros H. rewrite repeat_is_tab. rewrite set_nth_tab by auto. unfold one_hot. apply tab_ext. intros b Hb. reflexivity. Qed.

Theorem C61_init : forall n K lab alpha df, proper_labels n K lab -> 0 <= alpha < 1 -> (0 <= df < Z.of_nat K)%Z ->
  mc_init (tabZ n lab) alpha df = Ok {| mc_y := tab n lab; mc_full := tab n (fun i => one_hot K (lab i)); mc_alpha := alpha; mc_K := K; mc_deficient := Z.to_nat df |}.
Proof.
  intros n K lab alpha df H Ha Hd. unfold mc_init, check_scalar, check_scalar_Z. cbn [nlt]. rewrite (proj2 (Rltb_false alpha 0)) by lra. cbn [raise_if bind].
  rewrite (Permutation_length (proper_distinct n K lab H)), map_length, seq_length.
  destruct (Z.ltb_spec df 0); [lia|]. destruct (Z.ltb_spec (Z.of_nat K - 1) df); [lia|]. cbn [raise_if bind].
  rewrite (proj2 (Rleb_false 1 alpha)) by lra. cbn [raise_if bind].
  unfold tabZ at 1. rewrite (mapM_tab n _ _ (fun i => one_hot K (lab i))).
  - cbn [bind]. f_equal. f_equal. rewrite dense_rank_map. unfold tabZ at 2. rewrite map_tab. apply tab_ext. intros i Hi. apply (proper_rank n K); auto.
  - intros i Hi. destruct H as [Hl _]. specialize (Hl i Hi). rewrite np_index_nat by auto. cbn [bind]. rewrite set_one_hot by auto. reflexivity.
Qed.

Theorem C61_rejects : forall y alpha df,
  ~ (0 <= alpha < 1 /\ (0 <= df < Z.of_nat (length (distinct y)))%Z) -> mc_init y alpha df = Err ValueError.
Proof.
  intros y alpha df H. unfold mc_init, check_scalar, check_scalar_Z. cbn [nlt]. destruct (Rltb alpha 0) eqn:E; [reflexivity|]. apply Rltb_false in E. cbn [raise_if bind].
  destruct (Z.ltb_spec df 0); [reflexivity|]. cbn [raise_if bind]. destruct (Z.ltb_spec (Z.of_nat (length (distinct y)) - 1) df); [reflexivity|]. cbn [raise_if bind].
  destruct (Rleb 1 alpha) eqn:E'; [reflexivity|]. apply Rleb_false in E'. exfalso. apply H. split; [lra|lia].
Qed.

(** Any other labels: the reward of round i is in the column its label addresses, while the label itself is replaced by
    its rank. *)
Theorem C61_other_labels : forall n (y : nat -> Z) alpha df K, K = length (distinct (tab n y)) -> 0 <= alpha < 1 -> (0 <= df < Z.of_nat K)%Z ->
  ((exists i, (i < n)%nat /\ ~ (- Z.of_nat K <= y i < Z.of_nat K)%Z) -> mc_init (tab n y) alpha df = Err IndexError) /\
  ((forall i, (i < n)%nat -> (- Z.of_nat K <= y i < Z.of_nat K)%Z) ->
   mc_init (tab n y) alpha df
   = Ok {| mc_y := tab n (fun i => rank_in (tab n y) (y i)); mc_full := tab n (fun i => one_hot K (Z.to_nat (if Z.ltb (y i) 0 then y i + Z.of_nat K else y i)));
           mc_alpha := alpha; mc_K := K; mc_deficient := Z.to_nat df |}).
Proof.
  intros n y alpha df K EK Ha Hd. unfold mc_init, check_scalar, check_scalar_Z. cbn [nlt]. rewrite (proj2 (Rltb_false alpha 0)) by lra. cbn [raise_if bind].
  rewrite <- EK. destruct (Z.ltb_spec df 0); [lia|]. destruct (Z.ltb_spec (Z.of_nat K - 1) df); [lia|]. cbn [raise_if bind].
  rewrite (proj2 (Rleb_false 1 alpha)) by lra. cbn [raise_if bind]. split.
  - intros (i & Hi & Hb). rewrite (mapM_first_err _ _ IndexError); [reflexivity| |].
    + intros x _. destruct (Z_le_dec (- Z.of_nat K) x), (Z_lt_dec x (Z.of_nat K)).
      1:{ left. destruct (np_index_valid K x) as [-> _]; [unfold valid_action; lia|]. cbn [bind]. eauto. }
      all: right; rewrite np_index_invalid by (unfold valid_action; lia); reflexivity.
    + exists (y i). split; [apply In_tab; eauto|]. rewrite np_index_invalid by (unfold valid_action; lia). reflexivity.
  - intros Hv. rewrite (mapM_tab n _ _ (fun i => one_hot K (slot K (y i)))).
    + cbn [bind]. f_equal. f_equal. rewrite dense_rank_map, map_tab. reflexivity.
    + intros i Hi. destruct (np_index_valid K (y i)) as [-> Hs]; [apply Hv; auto|]. cbn [bind]. rewrite set_one_hot by auto. reflexivity.
Qed.

(** Labels -1 and 1: every round rewards action 1, whatever its label. *)
Theorem C61_plus_minus_one : forall n (y : nat -> Z) alpha, 0 <= alpha < 1 ->
  (forall i, (i < n)%nat -> y i = (-1)%Z \/ y i = 1%Z) -> (exists i, (i < n)%nat /\ y i = (-1)%Z) -> (exists i, (i < n)%nat /\ y i = 1%Z) ->
  exists d, mc_init (tab n y) alpha 0 = Ok d /\ mc_K d = 2%nat /\ mc_y d = tab n (fun i => if Z.eqb (y i) 1 then 1%nat else 0%nat) /\ mc_full d = tab n (fun _ => [0; 1]).
Proof.
  intros n y alpha Ha Hy Hm Hp.
  assert (P : Permutation (distinct (tab n y)) [(-1)%Z; 1%Z]).
  { apply NoDup_Permutation; [apply distinct_NoDup|repeat constructor; cbn; intuition lia|]. intros z. rewrite distinct_In. split.
    - intros H. apply In_tab in H as (i & Hi & <-). cbn. destruct (Hy i Hi); auto.
    - intros [<-|[<-|[]]]; apply In_tab; [destruct Hm as (i & ? & ?)|destruct Hp as (i & ? & ?)]; eauto. }
  assert (EK := Permutation_length P). cbn in EK. destruct (C61_other_labels n y alpha 0 2 (eq_sym EK) Ha ltac:(lia)) as [_ H].
  eexists. split; [apply H; intros i Hi; destruct (Hy i Hi) as [-> | ->]; lia|]. cbn [mc_K mc_y mc_full]. split; auto. split; apply tab_ext; intros i Hi.
  - unfold rank_in. rewrite (filter_perm_length _ _ _ P). destruct (Hy i Hi) as [-> | ->]; reflexivity.
  - destruct (Hy i Hi) as [-> | ->]; reflexivity.
Qed.

(** ** Policies *)

(** Mixture of the prediction (weight [alpha]) and the uniform policy. *)
Definition mixture (K : nat) (alpha : R) (pred a : nat) : R := (1 - alpha) / INR K + (if Nat.eqb a pred then alpha else 0).

Lemma mixed_row_tab K alpha pred : (pred < K)%nat -> mixed_row K alpha pred = tab K (mixture K alpha pred).
Proof.
  intros H. unfold mixed_row. rewrite repeat_is_tab, set_nth_tab by auto. apply tab_ext. intros a Ha. unfold mixture. destruct (Nat.eqb_spec a pred); lra.
Qed.
Lemma mixture_sum K alpha pred : (pred < K)%nat -> sumn K (mixture K alpha pred) = 1.
Proof.
  intros H. unfold mixture. rewrite sumn_plus, sumn_const. rewrite (sumn_term K _ pred); auto.
  - rewrite Nat.eqb_refl. field. apply not_0_INR. lia.
  - intros i Hi Hne. destruct (Nat.eqb_spec i pred); [congruence|reflexivity].
Qed.
Lemma mixture_lower K alpha pred a : (0 < K)%nat -> 0 <= alpha -> (1 - alpha) / INR K <= mixture K alpha pred a.
Proof. intros HK Ha. unfold mixture. destruct (Nat.eqb a pred); lra. Qed.
Lemma uniform_part K alpha : (0 < K)%nat -> alpha < 1 -> 0 < (1 - alpha) / INR K.
Proof. intros HK Ha. apply Rdiv_lt_0_compat; [lra|apply INR_pos; auto]. Qed.

(** The behaviour policy with the actions [D] removed. *)
Definition without (K : nat) (D : list nat) (p : nat -> R) (a : nat) : R :=
  if in_dec Nat.eq_dec a D then 0 else p a / (1 - sum_over D p).

Lemma deficient_mixture argsort K g p m : sorts argsort -> (m < K)%nat -> sumn K p = 1 -> (forall a, (a < K)%nat -> 0 < p a) ->
  let D := top argsort (tab K g) m in
  selected K m g D /\ mc_deficient_row argsort (tab K g) (tab K p) m = tab K (without K D p) /\
  sum_over D p < 1 /\ sumn K (without K D p) = 1.
Proof.
  intros Hs Hm H1 Hp D. destruct (top_selected argsort (tab K g) m Hs) as [Hsel (rest & HP)]; [rewrite tab_length; lia|]. rewrite tab_length in *. fold D in Hsel, HP.
  assert (Hsel' : selected K m g D).
  { destruct Hsel as (S1 & S2 & S3 & S4). split; auto. split; auto. split; auto. intros a b Ha Hb Nb. specialize (S4 a b Ha Hb Nb). rewrite !nth_tab in S4 by auto. auto. }
  split; [exact Hsel'|]. destruct Hsel' as (ND & LD & HD & _).
  set (r := fun a => if in_dec Nat.eq_dec a D then 0 else p a).
  assert (Er : scatter (tab K p) D (repeat 0 m) = tab K r).
  { apply (nth_ext _ _ 0 0); [rewrite scatter_length, !tab_length; reflexivity|]. rewrite scatter_length, tab_length. intros a Ha. rewrite nth_tab by auto. unfold r.
    destruct (in_dec Nat.eq_dec a D) as [HI|HI].
    - apply (In_nth _ _ 0%nat) in HI as (j & Hj & <-). rewrite scatter_in; auto.
      + apply nth_repeat.
      + intros b Hb. rewrite tab_length. auto.
      + rewrite repeat_length. auto.
    - rewrite scatter_out by auto. apply nth_tab. auto. }
  assert (Esum : sumn K r = 1 - sum_over D p /\ 0 < sumn K r).
  { assert (E1 : sumn K p = sum_over D p + sum_over rest p) by (rewrite <- sum_over_seq, (sum_over_perm _ _ p HP), sum_over_app; reflexivity).
    assert (E2 : sumn K r = sum_over rest p).
    { rewrite <- sum_over_seq, (sum_over_perm _ _ r HP), sum_over_app. rewrite (sum_over_zero D); [|intros a Ha; unfold r; destruct (in_dec Nat.eq_dec a D); tauto].
      rewrite Rplus_0_l. apply sum_over_ext. intros a Ha. unfold r. destruct (in_dec Nat.eq_dec a D) as [HI|]; [|reflexivity].
      exfalso. exact (perm_rest _ _ _ _ HP (seq_NoDup K 0) Ha HI). }
    split; [lra|]. rewrite E2. apply sum_over_pos.
    - intros ->. rewrite app_nil_r in HP. apply Permutation_length in HP. rewrite seq_length in HP. lia.
    - intros a Ha. apply Hp. assert (In a (seq 0 K)) by (rewrite HP; apply in_app_iff; auto). apply in_seq in H. lia. }
  destruct Esum as [E3 E4]. split; [|split; [lra|]].
  - unfold mc_deficient_row. fold D. rewrite Er, Rsum_tab, map_tab. apply tab_ext. intros a Ha. unfold without, r at 1. rewrite E3. destruct (in_dec Nat.eq_dec a D); [unfold Rdiv; ring|reflexivity].
  - rewrite (sumn_ext K _ (fun a => r a * / sumn K r)).
    + rewrite sumn_scal_r. field. lra.
    + intros a Ha. unfold without, r at 1. rewrite E3. destruct (in_dec Nat.eq_dec a D); [ring|reflexivity].
Qed.

Lemma mixture_row_pos K alpha pred a : (pred < K)%nat -> 0 <= alpha < 1 -> 0 < mixture K alpha pred a.
Proof. intros H Ha. pose proof (mixture_lower K alpha pred a ltac:(lia) ltac:(lra)). pose proof (uniform_part K alpha ltac:(lia) ltac:(lra)). lra. Qed.

(** The log of an evaluation set [ev] (rounds of the data): the behaviour policy is the mixture of prediction and uniform
    policy, without the deficient actions; the reward is 1 exactly when the logged action is the label. *)
Theorem C61_batch : forall n K lab alpha df d uniform argsort ne (ev pred : nat -> nat) g seed,
  proper_labels n K lab -> 0 <= alpha < 1 -> (0 <= df < Z.of_nat K)%Z -> mc_init (tabZ n lab) alpha df = Ok d ->
  sorts argsort -> (forall i, 0 <= uniform seed i < 1) -> (forall i, (i < ne)%nat -> (ev i < n)%nat /\ (pred i < K)%nat) ->
  exists (pi : nat -> nat -> R) (act : nat -> nat) (D : nat -> list nat),
    mc_batch uniform argsort d (tab ne ev) (tab ne pred) (tabR2 ne K g) seed
    = (tab ne act, tab ne (fun i => if Nat.eqb (act i) (lab (ev i)) then 1 else 0), tabR2 ne K pi, tab ne (fun i => pi i (act i))) /\
    forall i, (i < ne)%nat ->
      selected K (Z.to_nat df) (g i) (D i) /\
      (forall a, (a < K)%nat -> pi i a = if in_dec Nat.eq_dec a (D i) then 0 else mixture K alpha (pred i) a / (1 - sum_over (D i) (mixture K alpha (pred i)))) /\
      sumn K (pi i) = 1 /\ (forall a, (a < K)%nat -> ~ In a (D i) -> (1 - alpha) / INR K <= pi i a) /\
      (act i < K)%nat /\ ~ In (act i) (D i) /\
      (forall a, (a < K)%nat -> (act i = a <-> sumn a (pi i) <= uniform seed i < sumn a (pi i) + pi i a)).
Proof.
  intros * Hlab Ha Hdf Hinit Hs Hu Hev. rewrite (C61_init n K lab alpha df Hlab Ha Hdf) in Hinit. injection Hinit as <-.
  set (D := fun i => top argsort (tab K (g i)) (Z.to_nat df)). set (pi := fun i => without K (D i) (mixture K alpha (pred i))).
  assert (HD : forall i, (i < ne)%nat -> selected K (Z.to_nat df) (g i) (D i) /\ mc_deficient_row argsort (tab K (g i)) (tab K (mixture K alpha (pred i))) (Z.to_nat df) = tab K (pi i) /\
     sum_over (D i) (mixture K alpha (pred i)) < 1 /\ sumn K (pi i) = 1).
  { intros i Hi. destruct (Hev i Hi) as [_ Hp]. apply deficient_mixture; auto; [lia|apply mixture_sum; auto|]. intros a _. apply mixture_row_pos; auto. }
  assert (EP : forall i, (i < ne)%nat -> (df = 0)%Z -> tab K (mixture K alpha (pred i)) = tab K (pi i)).
  { intros i Hi E. apply tab_ext. intros a Haa. unfold pi, without, D. rewrite E. unfold top. cbn [Z.to_nat firstn]. cbn. unfold sum_over. cbn. field. }
  unfold mc_batch. cbn [mc_K mc_alpha mc_deficient]. rewrite map_tab.
  assert (Erows : tab ne (fun i => mixed_row K alpha (pred i)) = tab ne (fun i => tab K (mixture K alpha (pred i)))).
  { apply tab_ext. intros i Hi. apply mixed_row_tab. apply Hev. auto. }
  rewrite Erows. set (pb := if Nat.ltb 0 (Z.to_nat df) then _ else _).
  assert (Epb : pb = tabR2 ne K pi).
  { unfold pb, tabR2. destruct (Nat.ltb_spec 0 (Z.to_nat df)).
    - rewrite combine_tab, map_tab. apply tab_ext. intros i Hi. cbn [fst snd]. apply HD. auto.
    - apply tab_ext. intros i Hi. apply EP; auto. lia. }
  rewrite Epb. rewrite tab_length. change (map (uniform seed) (seq 0 ne)) with (tab ne (uniform seed)).
  assert (Hpos : forall i a, (i < ne)%nat -> (a < K)%nat -> 0 <= pi i a /\ (~ In a (D i) -> (1 - alpha) / INR K <= pi i a)).
  { intros i a Hi Haa. destruct (HD i Hi) as ((ND & LD & HDK & _) & _ & Hlt & _). destruct (Hev i Hi) as [_ Hp]. unfold pi, without.
    assert (M := mixture_row_pos K alpha (pred i) a Hp Ha). assert (M' := mixture_lower K alpha (pred i) a ltac:(lia) ltac:(lra)). assert (U := uniform_part K alpha ltac:(lia) ltac:(lra)).
    assert (0 <= sum_over (D i) (mixture K alpha (pred i))).
    { unfold sum_over. generalize (D i). induction l as [|b l IH]; cbn; [lra|]. pose proof (mixture_row_pos K alpha (pred i) b Hp Ha). lra. }
    destruct (in_dec Nat.eq_dec a (D i)); [split; [lra|tauto]|]. 
    assert (mixture K alpha (pred i) a <= mixture K alpha (pred i) a / (1 - sum_over (D i) (mixture K alpha (pred i)))).
    { unfold Rdiv. rewrite <- (Rmult_1_r (mixture K alpha (pred i) a)) at 1. apply Rmult_le_compat_l; [lra|]. rewrite <- Rinv_1 at 1. apply Rinv_le_contravar; lra. }
    split; [lra|]. intros _. lra. }
  destruct (C03_inverse_cdf ne K pi (uniform seed)) as (act & Ea & A1 & A2); auto.
  { intros i a Hi Haa. apply Hpos; auto. } { intros i Hi. apply HD; auto. }
  change (sample_action_fast (tabR2 ne K pi) (tab ne (uniform seed))) with (sample_action_fast (tab ne (fun i => tab K (pi i))) (tab ne (uniform seed))). rewrite Ea.
  exists pi, act, D. split.
  - assert (Hact : forall i, (i < ne)%nat -> (act i < K)%nat) by (intros i Hi; apply (A1 i Hi)). rewrite (pick_cols_tab ne K pi act Hact).
    assert (Ef : mc_eval_full (mkMC (tab n lab) (tab n (fun i => one_hot K (lab i))) alpha K (Z.to_nat df)) (tab ne ev) = tabR2 ne K (fun i b => if Nat.eqb b (lab (ev i)) then 1 else 0)).
    { unfold mc_eval_full. cbn [mc_full]. rewrite map_tab. unfold tabR2. apply tab_ext. intros i Hi. rewrite nth_tab by (apply Hev; auto). reflexivity. }
    rewrite Ef, pick_cols_tab by auto. reflexivity.
  - intros i Hi. destruct (HD i Hi) as (B1 & _ & _ & B4). destruct (A1 i Hi) as (C1 & _ & C3).
    split; [exact B1|]. split; [reflexivity|]. split; [exact B4|]. split; [intros a Haa Na; apply Hpos; auto|]. split; [exact C1|]. split.
    + intros HI. unfold pi, without in C3. destruct (in_dec Nat.eq_dec (act i) (D i)); [lra|tauto].
    + intros a Haa. apply A2; auto.
Qed.

Theorem C61_eval_policy : forall n K lab alpha df d ne (pred : nat -> nat) alpha_e,
  proper_labels n K lab -> 0 <= alpha < 1 -> (0 <= df < Z.of_nat K)%Z -> mc_init (tabZ n lab) alpha df = Ok d -> (forall i, (i < ne)%nat -> (pred i < K)%nat) ->
  (0 <= alpha_e <= 1 -> mc_eval_policy d (tab ne pred) alpha_e = Ok (tab ne (fun i => tab K (fun a => [mixture K alpha_e (pred i) a]))) /\
     forall i, (i < ne)%nat -> sumn K (mixture K alpha_e (pred i)) = 1 /\ forall a, 0 <= mixture K alpha_e (pred i) a) /\
  (~ (0 <= alpha_e <= 1) -> mc_eval_policy d (tab ne pred) alpha_e = Err ValueError).
Proof.
  intros * Hlab Ha Hdf Hinit Hp. rewrite (C61_init n K lab alpha df Hlab Ha Hdf) in Hinit. injection Hinit as <-. unfold mc_eval_policy, check_scalar. cbn [nlt mc_K]. split.
  - intros He. rewrite !(proj2 (Rltb_false _ _)) by lra. cbn [raise_if bind]. split.
    + f_equal. rewrite map_tab. apply tab_ext. intros i Hi. rewrite mixed_row_tab by auto. rewrite map_tab. reflexivity.
    + intros i Hi. split; [apply mixture_sum; auto|]. intros a. specialize (Hp i Hi). unfold mixture.
      assert (0 <= (1 - alpha_e) / INR K) by (apply Rmult_le_pos; [lra|left; apply Rinv_0_lt_compat, INR_pos; lia]). destruct (Nat.eqb a (pred i)); lra.
  - intros He. destruct (Rltb alpha_e 0) eqn:E1; [reflexivity|]. apply Rltb_false in E1. cbn [raise_if bind]. rewrite (proj2 (Rltb_true 1 alpha_e)) by lra. reflexivity.
Qed.

(** The ground truth of an evaluation policy is its mean probability of the label, which is its expected reward. *)
Theorem C61_ground_truth : forall n K lab alpha df d ne ne' (ev : nat -> nat) (pe : nat -> nat -> nat -> R),
  proper_labels n K lab -> 0 <= alpha < 1 -> (0 <= df < Z.of_nat K)%Z -> mc_init (tabZ n lab) alpha df = Ok d ->
  (forall i, (i < ne)%nat -> (ev i < n)%nat) -> (0 < ne)%nat ->
  mc_ground_truth d (tab ne ev) (tab3F ne K 1 pe) = Ok (Fin (avg ne (fun i => pe i (lab (ev i)) 0%nat))) /\
  avg ne (fun i => pe i (lab (ev i)) 0%nat) = avg ne (fun i => sumn K (fun a => pe i a 0%nat * (if Nat.eqb a (lab (ev i)) then 1 else 0))) /\
  (ne' <> ne -> mc_ground_truth d (tab ne ev) (tab3F ne' K 1 pe) = Err ValueError).
Proof.
  intros * Hlab Ha Hdf Hinit Hev Hne. rewrite (C61_init n K lab alpha df Hlab Ha Hdf) in Hinit. injection Hinit as <-. destruct Hlab as [Hl _].
  assert (EL : forall k, length (tab3F k K 1 pe) = k) by (intros; unfold tab3F; apply tab_length). split; [|split].
  - unfold mc_ground_truth. rewrite EL, tab_length, Nat.eqb_refl. cbn [negb raise_if bind]. unfold mc_eval_y. cbn [mc_y]. rewrite map_tab. unfold tab3F. rewrite combine_tab.
    rewrite (mapM_tab ne _ _ (fun i => [Fin (pe i (lab (ev i)) 0%nat)])).
    + cbn [bind]. f_equal. replace (concat (tab ne (fun i => [Fin (pe i (lab (ev i)) 0%nat)]))) with (tabF ne (fun i => pe i (lab (ev i)) 0%nat)).
      * apply nmean_tabF. auto.
      * unfold tabF, tab. induction (seq 0 ne) as [|j l IH]; cbn; [reflexivity|]. rewrite IH. reflexivity.
    + intros i Hi. cbn [fst snd]. rewrite nth_tab by auto. unfold tab2F. rewrite (np_get_tab K (fun a => tabF 1 (pe i a)) (lab (ev i))) by auto. reflexivity.
  - apply avg_ext. intros i Hi. rewrite (sumn_term K _ (lab (ev i))); auto.
    + rewrite Nat.eqb_refl. ring.
    + intros a Haa Hna. destruct (Nat.eqb_spec a (lab (ev i))); [congruence|ring].
  - intros Hn. unfold mc_ground_truth. rewrite EL, tab_length. rewrite (proj2 (Nat.eqb_neq ne' ne)) by auto. reflexivity.
Qed.

Example C61_example : proper_labels 4 3 (fun i => nth i [2; 0; 1; 2]%nat 0%nat) /\ sorts insertion_argsort /\ (0 <= 1 < Z.of_nat 3)%Z.
Proof.
  split; [split|split; [apply insertion_argsort_sorts|lia]].
  - intros i Hi. idx i; cbn; lia.
  - intros c Hc. destruct c as [|[|[|c]]]; [exists 1%nat|exists 2%nat|exists 0%nat|lia]; cbn; split; auto; lia.
Qed.
Example C61_labels_example : exists d, mc_init [(-1); 1; 1; -1]%Z (1 / 2) 0 = Ok d /\ mc_full d = tab 4 (fun _ => [0; 1]).
Proof.
  destruct (C61_plus_minus_one 4 (fun i => nth i [(-1); 1; 1; -1]%Z 0%Z) (1 / 2)) as (d & E & _ & _ & F); [lra| | | |exists d; split; auto].
  - intros i Hi. idx i; cbn; auto; lia.
  - exists 0%nat. split; [lia|reflexivity].
  - exists 1%nat. split; [lia|reflexivity].
Qed.

Print Assumptions C61_init.
Print Assumptions C61_rejects.
Print Assumptions C61_other_labels.
Print Assumptions C61_plus_minus_one.
Print Assumptions C61_batch.
Print Assumptions C61_eval_policy.
Print Assumptions C61_ground_truth.
