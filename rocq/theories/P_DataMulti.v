(** * P_DataMulti: logs with several logging policies (C60). *)

From Coq Require Import Reals List ZArith Lia Lra Bool Permutation.
From Verif Require Import Num NpList M_Utils M_Data S_Base S_Data L_Num L_Base L_Utils L_Examples L_Data P_Utils P_Data.
Import ListNotations.
Open Scope R_scope.

(** ** Rounding *)

Lemma Rabs_bounds a b : Rabs a <= b -> - b <= a <= b.
Proof. unfold Rabs. destruct (Rcase_abs a); lra. Qed.

Theorem C60_rounding : forall x z, round_half_even x = z <-> nearest_even x z.
Proof.
  assert (E : forall x, nearest_even x (round_half_even x)).
  { intros x. unfold round_half_even, nearest_even. pose proof (base_Int_part x) as [B1 B2]. set (f := Int_part x) in *.
    destruct (Rltb (x - IZR f) (1 / 2)) eqn:E1.
    - apply Rltb_true in E1. rewrite Rabs_left1 by lra. split; [lra|]. intros. lra.
    - apply Rltb_false in E1. destruct (Rltb (1 / 2) (x - IZR f)) eqn:E2.
      + apply Rltb_true in E2. rewrite plus_IZR. rewrite Rabs_right by lra. split; lra.
      + apply Rltb_false in E2. assert (x - IZR f = 1 / 2) by lra. destruct (Z.even f) eqn:Ev.
        * rewrite Rabs_left1 by lra. split; [lra|auto].
        * rewrite plus_IZR. rewrite Rabs_right by lra. split; [lra|]. intros _. rewrite Z.add_1_r, Z.even_succ, <- Z.negb_even, Ev. reflexivity. }
  intros x z. split; [intros <-; apply E|]. intros H. specialize (E x). set (y := round_half_even x) in *. destruct E as [A1 A2], H as [H1 H2].
  assert (D : Rabs (IZR (y - z)) <= 1).
  { rewrite minus_IZR. replace (IZR y - IZR z) with ((IZR y - x) - (IZR z - x)) by ring. eapply Rle_trans; [apply Rabs_triang|]. rewrite Rabs_Ropp. lra. }
  rewrite <- abs_IZR in D. apply le_IZR in D.
  assert (C : (y = z \/ y = z + 1 \/ z = y + 1)%Z) by lia. destruct C as [C|[C|C]]; [auto| |]; exfalso.
  - assert (X : IZR y = IZR z + 1) by (rewrite C, plus_IZR; reflexivity).
    apply Rabs_bounds in A1. apply Rabs_bounds in H1. assert (IZR y - x = 1 / 2) by lra. assert (IZR z - x = - (1 / 2)) by lra.
    rewrite H in A2. rewrite H0 in H2. rewrite Rabs_right in A2 by lra. rewrite Rabs_left in H2 by lra. specialize (A2 eq_refl). specialize (H2 ltac:(lra)).
    rewrite C, Z.add_1_r, Z.even_succ, <- Z.negb_even, H2 in A2. discriminate.
  - assert (X : IZR z = IZR y + 1) by (rewrite C, plus_IZR; reflexivity).
    apply Rabs_bounds in A1. apply Rabs_bounds in H1. assert (IZR z - x = 1 / 2) by lra. assert (IZR y - x = - (1 / 2)) by lra.
    rewrite H0 in A2. rewrite H in H2. rewrite Rabs_left in A2 by lra. rewrite Rabs_right in H2 by lra. specialize (A2 ltac:(lra)). specialize (H2 eq_refl).
    rewrite C, Z.add_1_r, Z.even_succ, <- Z.negb_even, A2 in H2. discriminate.
Qed.

(** ** Stratum sizes *)

Lemma zsum_tab n f : zsum (tab n f) = zsumn n f.
Proof.
  unfold zsum. induction n as [|n IH]; [reflexivity|]. rewrite tab_S, fold_right_app. cbn [fold_right zsumn].
  assert (G : forall l c, fold_right Z.add c l = (fold_right Z.add 0%Z l + c)%Z) by (induction l as [|x l IHl]; intros c; cbn; [lia|rewrite IHl; lia]).
  rewrite G, IH. lia.
Qed.
Lemma zsumn_ext n f g : (forall i, (i < n)%nat -> f i = g i) -> zsumn n f = zsumn n g.
Proof. induction n as [|n IH]; intros H; cbn; [reflexivity|]. rewrite IH, H by auto. reflexivity. Qed.

Definition size_of (n M : nat) (rho : nat -> R) (k : nat) : Z :=
  if Nat.eqb (S k) M then (Z.of_nat n - zsumn (M - 1) (fun j => round_half_even (INR n * rho j)))%Z else round_half_even (INR n * rho k).

Lemma strata_sizes_tab n M rho : (0 < M)%nat -> strata_sizes n (tab M rho) = tab M (size_of n M rho).
Proof.
  intros HM. unfold strata_sizes. rewrite map_tab, zsum_tab. destruct M as [|M]; [lia|]. rewrite tab_S, rev_app_distr. cbn [rev app]. rewrite rev_involutive.
  rewrite tab_S. f_equal.
  - apply tab_ext. intros k Hk. unfold size_of. destruct (Nat.eqb_spec (S k) (S M)); [lia|reflexivity].
  - f_equal. unfold size_of. rewrite Nat.eqb_refl. cbn [zsumn]. replace (S M - 1)%nat with M by lia. lia.
Qed.

(** All strata but the last get their rounded share, the last one the rest; the sizes add up to the number of rounds. *)
Theorem C60_sizes : forall n M (rho : nat -> R), (0 < M)%nat ->
  exists size : nat -> Z, strata_sizes n (tab M rho) = tab M size /\
    (forall k, (S k < M)%nat -> nearest_even (INR n * rho k) (size k)) /\ zsumn M size = Z.of_nat n.
Proof.
  intros n M rho HM. exists (size_of n M rho). split; [apply strata_sizes_tab; auto|]. split.
  - intros k Hk. apply C60_rounding. unfold size_of. destruct (Nat.eqb_spec (S k) M); [lia|reflexivity].
  - destruct M as [|M]; [lia|]. cbn [zsumn]. unfold size_of at 2. rewrite Nat.eqb_refl. replace (S M - 1)%nat with M by lia.
    rewrite (zsumn_ext M (size_of n (S M) rho) (fun j => round_half_even (INR n * rho j))); [lia|].
    intros i Hi. unfold size_of. destruct (Nat.eqb_spec (S i) (S M)); [lia|reflexivity].
Qed.

Lemma IZR_zsumn n f : IZR (zsumn n f) = sumn n (fun i => IZR (f i)).
Proof. induction n as [|n IH]; cbn; [reflexivity|]. rewrite plus_IZR, IH. reflexivity. Qed.

(** The last stratum deviates from its share by at most half a round per other stratum. *)
Theorem C60_last : forall n M (rho : nat -> R) size, (0 < M)%nat -> sumn M rho = 1 -> strata_sizes n (tab M rho) = tab M size ->
  Rabs (IZR (size (M - 1)%nat) - INR n * rho (M - 1)%nat) <= INR (M - 1) / 2.
Proof.
  intros n M rho size HM Hs E. destruct (C60_sizes n M rho HM) as (size' & E' & H1 & H2). rewrite E in E'.
  assert (EQ : forall k, (k < M)%nat -> size k = size' k) by (apply tab_inj; auto).
  destruct M as [|M]; [lia|]. replace (S M - 1)%nat with M by lia. rewrite EQ by lia. cbn [zsumn sumn] in *.
  apply (f_equal IZR) in H2. rewrite plus_IZR, IZR_zsumn, <- INR_IZR_INZ in H2.
  replace (IZR (size' M) - INR n * rho M) with (sumn M (fun k => INR n * rho k - IZR (size' k))).
  - assert (B : forall m, (m <= M)%nat -> Rabs (sumn m (fun k => INR n * rho k - IZR (size' k))) <= INR m / 2).
    { induction m as [|m IH]; intros Hm; cbn [sumn]; [rewrite Rabs_R0; cbn; lra|]. eapply Rle_trans; [apply Rabs_triang|]. rewrite S_INR.
      destruct (H1 m ltac:(lia)) as [G _]. rewrite Rabs_minus_sym in G. specialize (IH ltac:(lia)). lra. }
    apply B. lia.
  - rewrite sumn_minus, sumn_scal. replace (sumn M rho) with (1 - rho M) by lra. replace (sumn M (fun k => IZR (size' k))) with (INR n - IZR (size' M)) by lra. ring.
Qed.

(** When all shares are integers the sizes are the shares. *)
Theorem C60_exact : forall n M (rho : nat -> R) (c : nat -> nat), (0 < M)%nat -> sumn M rho = 1 -> (forall k, (k < M)%nat -> INR n * rho k = INR (c k)) ->
  strata_sizes n (tab M rho) = tab M (fun k => Z.of_nat (c k)).
Proof.
  intros n M rho c HM Hs Hc. destruct (C60_sizes n M rho HM) as (size & E & H1 & H2). rewrite E. apply tab_ext.
  assert (A : forall k, (S k < M)%nat -> size k = Z.of_nat (c k)).
  { intros k Hk. specialize (H1 k Hk). apply C60_rounding in H1. rewrite <- H1. apply C60_rounding. rewrite Hc by lia. unfold nearest_even. rewrite <- INR_IZR_INZ. split; [rewrite Rminus_eq_0, Rabs_R0; lra|].
    rewrite Rminus_eq_0, Rabs_R0. lra. }
  intros k Hk. destruct (Nat.eq_dec (S k) M) as [EM|]; [|apply A; lia]. subst M. cbn [zsumn sumn] in *. apply eq_IZR. rewrite <- INR_IZR_INZ.
  apply (f_equal IZR) in H2. rewrite plus_IZR, IZR_zsumn, <- INR_IZR_INZ in H2.
  rewrite <- Hc by lia. rewrite (sumn_ext k _ (fun j => INR n * rho j)) in H2.
  - rewrite sumn_scal in H2. replace (sumn k rho) with (1 - rho k) in H2 by lra. lra.
  - intros j Hj. rewrite A by lia. rewrite <- INR_IZR_INZ, <- Hc by lia. reflexivity.
Qed.

(** ** The batch *)

(** Blocks of the given sizes: the block of round i. *)
Lemma blocks M (s : nat -> nat) : exists blk : nat -> nat,
  (forall A (v : nat -> A), concat (tab M (fun k => repeat (v k) (s k))) = tab (list_sum (tab M s)) (fun i => v (blk i))) /\
  (forall i, (i < list_sum (tab M s))%nat -> (blk i < M)%nat /\ (list_sum (tab (blk i) s) <= i < list_sum (tab (S (blk i)) s))%nat).
Proof.
  induction M as [|M (blk & IH1 & IH2)].
  - exists (fun _ => 0%nat). split; [reflexivity|]. cbn. intros i Hi. lia.
  - set (N := list_sum (tab M s)) in *. exists (fun i => if Nat.ltb i N then blk i else M). 
    assert (EN : list_sum (tab (S M) s) = (N + s M)%nat) by (rewrite tab_S, list_sum_app; cbn; lia). rewrite EN. split.
    + intros A v. rewrite tab_S, concat_app. cbn [concat]. rewrite app_nil_r, IH1. unfold tab. rewrite seq_app, map_app. f_equal.
      * apply map_ext_in. intros i Hi. apply in_seq in Hi. destruct (Nat.ltb_spec i N); [reflexivity|lia].
      * rewrite (map_ext_in _ (fun _ => v M)); [|intros i Hi; apply in_seq in Hi; destruct (Nat.ltb_spec i N); [lia|reflexivity]].
        generalize (0 + N)%nat as b. clear. induction (s M) as [|k IHk]; intros b; cbn; [reflexivity|]. rewrite <- IHk. reflexivity.
    + intros i Hi. destruct (Nat.ltb_spec i N).
      * destruct (IH2 i) as [B1 B2]; [lia|]. split; [lia|auto].
      * split; [lia|]. fold N. rewrite EN. lia.
Qed.

Lemma fill_blocks n M size : (forall k, (k < M)%nat -> (0 <= size k)%Z) -> zsumn M size = Z.of_nat n ->
  exists blk : nat -> nat, (forall A (v : nat -> A), fill (tab M size) (tab M v) = Ok (tab n (fun i => v (blk i)))) /\
    (forall i, (i < n)%nat -> (blk i < M)%nat /\ (zsumn (blk i) size <= Z.of_nat i < zsumn (S (blk i)) size)%Z).
Proof.
  intros Hp Hs. destruct (blocks M (fun k => Z.to_nat (size k))) as (blk & B1 & B2).
  assert (E : forall m, (m <= M)%nat -> Z.of_nat (list_sum (tab m (fun k => Z.to_nat (size k)))) = zsumn m size).
  { induction m as [|m IH]; intros Hm; [reflexivity|]. rewrite tab_S, list_sum_app, Nat2Z.inj_add, IH by lia. cbn [list_sum fold_right zsumn]. rewrite Nat.add_0_r, Z2Nat.id by (apply Hp; lia). reflexivity. }
  assert (EN : list_sum (tab M (fun k => Z.to_nat (size k))) = n) by (apply Nat2Z.inj; rewrite E by lia; auto). rewrite EN in *. exists blk. split.
  - intros A v. unfold fill. destruct (existsb _ _) eqn:X.
    + apply existsb_tab in X as (k & Hk & X). apply Z.ltb_lt in X. specialize (Hp k Hk). lia.
    + cbn [raise_if bind]. rewrite combine_tab, map_tab. cbn [fst snd]. rewrite B1. reflexivity.
  - intros i Hi. destruct (B2 i Hi) as [H1 H2]. split; auto. rewrite <- !E by lia. lia.
Qed.

(** The average policy of the log: the stratum policies weighted by the normalised shares. *)
Definition full_boltzmann (K : nat) (beta : R) (lg : nat -> R) (a : nat) : R := exp (beta * lg a) / sumn K (fun b => exp (beta * lg b)).

Lemma average_policy_tab n K M (beta rho : nat -> R) (lg : nat -> nat -> R) : (0 < K)%nat ->
  average_policy (tab M beta) (tab M rho) (tabR2 n K lg) = tabR2 n K (fun i a => sumn M (fun k => rho k * full_boltzmann K (beta k) (lg i) a)).
Proof.
  intros HK. unfold average_policy. rewrite combine_tab.
  assert (E0 : map (map (fun _ : R => 0)) (tabR2 n K lg) = tabR2 n K (fun _ _ => 0)).
  { unfold tabR2. rewrite map_tab. apply tab_ext. intros. rewrite map_tab. reflexivity. }
  rewrite E0. induction M as [|M IH]; [reflexivity|]. rewrite tab_S, fold_left_app. cbn [fold_left fst snd]. rewrite IH. cbn [sumn].
  unfold tabR2. rewrite map_tab, combine_tab, map_tab. apply tab_ext. intros i Hi. cbn [fst snd].
  assert (ES : softmax_row (map (fun v => beta M * v) (tab K (lg i))) = tab K (full_boltzmann K (beta M) (lg i))).
  { destruct (full_row_ok (beta M) K (lg i) HK) as [[F _] FL]. etransitivity; [apply (tab_eta _ 0)|]. rewrite FL. apply tab_ext. intros a Ha.
    rewrite F by (auto; apply in_seq; lia). unfold boltzmann_on. rewrite sum_over_seq. reflexivity. }
  rewrite ES, map_tab, combine_tab, map_tab. reflexivity.
Qed.

(** The logging policy of round i: the softmax policy with the inverse temperature of its stratum -- unless there are
    deficient actions: then all rounds use the dataset's [beta] on their supported actions. *)
Definition multi_logged (d : synth) (n : nat) (u : nat -> R) (beta : nat -> R) (g lg pi : nat -> nat -> R) (act : nat -> nat) (S : nat -> list nat) (stratum : nat -> nat) : Prop :=
  forall i, (i < n)%nat ->
    selected (ds_K d) (ds_K d - ds_deficient d) (g i) (S i) /\
    softmax_on (ds_K d) (S i) (if Nat.eqb (ds_deficient d) 0 then beta (stratum i) else ds_beta d) (lg i) (pi i) /\
    (forall a, (a < ds_K d)%nat -> 0 <= pi i a) /\ sumn (ds_K d) (pi i) = 1 /\
    (act i < ds_K d)%nat /\ 0 < pi i (act i) /\
    (forall a, (a < ds_K d)%nat -> (act i = a <-> sumn a (pi i) <= u i < sumn a (pi i) + pi i a)).

Theorem C60_batch : forall tn uniform argsort d n M beta rho size context g binom m,
  sorts argsort -> (forall i, 0 <= uniform (ds_seed d) i < 1) -> (ds_deficient d < ds_K d)%nat -> (0 < n)%nat -> (0 < M)%nat -> length context = n ->
  mean_table d context n m -> strata_sizes n (tab M rho) = tab M size ->
  let q i a := reported tn d (m i a) in
  let run := multi_batch tn uniform argsort d (tab M beta) (tab M rho) (Z.of_nat n) context (tabR2 n (ds_K d) g) binom in
  ((exists k, (k < M)%nat /\ (size k < 0)%Z) -> run = Err ValueError) /\
  ((forall k, (k < M)%nat -> (0 <= size k)%Z) ->
   exists pi act S stratum, multi_logged d n (uniform (ds_seed d)) beta g q pi act S stratum /\
     (forall i, (i < n)%nat -> (stratum i < M)%nat /\ (zsumn (stratum i) size <= Z.of_nat i < zsumn (Datatypes.S (stratum i)) size)%Z) /\
     let avg_pi i a := sumn M (fun k => rho k * full_boltzmann (ds_K d) (beta k) (q i) a) in
     let log rewards := {| mb_batch := {| b_n := n; b_actions := ds_K d; b_context := context; b_action := tab n act; b_reward := tab n rewards;
           b_expected := tabR2 n (ds_K d) q; b_pi := tab n (fun i => tab (ds_K d) (fun a => [pi i a])); b_pscore := tab n (fun i => pi i (act i)) |};
         mb_stratum := tab n stratum; mb_pi_avg := tabR2 n (ds_K d) avg_pi; mb_pscore_avg := tab n (fun i => avg_pi i (act i)) |} in
     (ds_binary d = true -> (forall i, (i < n)%nat -> 0 <= q i (act i) <= 1) -> run = Ok (log (fun i => if binom i (q i (act i)) then 1 else 0))) /\
     (ds_binary d = true -> (exists i, (i < n)%nat /\ ~ (0 <= q i (act i) <= 1)) -> run = Err ValueError) /\
     (ds_binary d = false -> run = Ok (log (fun i => let mu := q i (act i) in
         tn_rvs tn (ds_seed d) ((0 - mu) / ds_std d) ((ds_max d - mu) / ds_std d) mu (ds_std d) i)))).
Proof.
  intros tn uniform argsort d n M beta rho size context g binom m Hs Hu Hd Hn HM HL Hm Esz q run.
  assert (Erun : run = (stratum <- fill (tab M size) (seq 0 M) ;; beta_ <- fill (tab M size) (tab M beta) ;;
    let pi_b := behaviour argsort (ds_K d) (ds_deficient d) (if Nat.ltb 0 (ds_deficient d) then repeat (ds_beta d) n else beta_) (tabR2 n (ds_K d) g) (tabR2 n (ds_K d) q) in
    let actions := sample_action_fast pi_b (tab n (uniform (ds_seed d))) in
    let pi_avg := tabR2 n (ds_K d) (fun i a => sumn M (fun k => rho k * full_boltzmann (ds_K d) (beta k) (q i) a)) in
    rewards <- sample_given tn binom d (tabR2 n (ds_K d) q) actions ;;
    Ok (mkMB (mkBatch n (ds_K d) context actions rewards (tabR2 n (ds_K d) q) (map (map (fun v => [v])) pi_b) (pick_cols pi_b actions)) stratum pi_avg (pick_cols pi_avg actions)))).
  { unfold run, multi_batch, check_scalar_Z. destruct (Z.ltb_spec (Z.of_nat n) 1); [lia|]. cbn [raise_if bind]. rewrite tab_length. destruct (Nat.eqb_spec M 0); [lia|]. cbn [raise_if bind].
    rewrite Nat2Z.id, Esz, tab_length. rewrite (corrected_tab tn d context n m HL Hm). fold q.
    rewrite average_policy_tab by lia. reflexivity. }
  rewrite Erun. clear Erun run. split.
  - intros (k & Hk & Hneg). unfold fill. replace (existsb (fun z => Z.ltb z 0) (tab M size)) with true; [reflexivity|].
    symmetry. apply existsb_tab. exists k. split; auto. apply Z.ltb_lt. auto.
  - intros Hpos. assert (Hsum : zsumn M size = Z.of_nat n).
    { destruct (C60_sizes n M rho HM) as (size' & E' & _ & H2). rewrite Esz in E'. rewrite <- H2. apply zsumn_ext. apply tab_inj. auto. }
    destruct (fill_blocks n M size Hpos Hsum) as (blk & F & HB).
    rewrite <- (map_id (seq 0 M)). change (map (fun x => x) (seq 0 M)) with (tab M (fun k => k)). rewrite !F. cbn [bind]. cbv zeta.
    set (bt := fun i => if Nat.eqb (ds_deficient d) 0 then beta (blk i) else ds_beta d).
    assert (Eb : (if Nat.ltb 0 (ds_deficient d) then repeat (ds_beta d) n else tab n (fun i => beta (blk i))) = tab n bt).
    { unfold bt. destruct (Nat.ltb_spec 0 (ds_deficient d)), (Nat.eqb_spec (ds_deficient d) 0); try lia; auto. apply repeat_is_tab. }
    rewrite Eb. destruct (behaviour_ok argsort n (ds_K d) (ds_deficient d) bt g q Hs Hd) as (pi & S & EB & H).
    assert (D : forall i, (i < n)%nat -> (forall a, (a < ds_K d)%nat -> 0 <= pi i a) /\ sumn (ds_K d) (pi i) = 1 /\ (forall a, (a < ds_K d)%nat -> (0 < pi i a <-> In a (S i)))).
    { intros i Hi. destruct (H i Hi) as (Hsel & Hsm & Hr). eapply softmax_on_dist; eauto. destruct Hsel as (_ & HLS & _). intros E0. rewrite E0 in HLS. cbn in HLS. lia. }
    destruct (C03_inverse_cdf n (ds_K d) pi (uniform (ds_seed d))) as (act & Ea & H1 & H2); auto.
    { intros i a Hi Ha. apply D; auto. } { intros i Hi. apply D; auto. }
    rewrite EB.
    assert (Ha : forall i, (i < n)%nat -> (act i < ds_K d)%nat) by (intros i Hi; apply (H1 i Hi)).
    change (sample_action_fast (tabR2 n (ds_K d) pi) (tab n (uniform (ds_seed d)))) with (sample_action_fast (tab n (fun i => tab (ds_K d) (pi i))) (tab n (uniform (ds_seed d)))).
    rewrite Ea. rewrite !pick_cols_tab by auto.
    exists pi, act, S, blk. split; [|split; [exact HB|]].
    + intros i Hi. destruct (H i Hi) as (A1 & A2 & _). destruct (D i Hi) as (D1 & D2 & _). destruct (H1 i Hi) as (B1 & _ & B3).
      split; [exact A1|]. split; [exact A2|]. split; [exact D1|]. split; [exact D2|]. split; [exact B1|]. split; [exact B3|]. intros a Ha'. apply H2; auto.
    + replace (map (map (fun v => [v])) (tabR2 n (ds_K d) pi)) with (tab n (fun i => tab (ds_K d) (fun a => [pi i a])))
        by (unfold tabR2; rewrite map_tab; apply tab_ext; intros; rewrite map_tab; reflexivity).
      destruct (sample_given_tab tn binom d n q act Ha) as (G1 & G2 & G3). split; [|split]; intros Hb; [intros Q1|intros Q1|].
      * rewrite G2 by auto. reflexivity.
      * rewrite G3 by auto. reflexivity.
      * rewrite G1 by auto. reflexivity.
Qed.

(** The constructor accepts non-negative shares, not all zero, one per logging policy, and normalises them. *)
Theorem C60_constructor : forall M M' (beta rho : nat -> R), (0 < M)%nat ->
  ((forall k, (k < M)%nat -> 0 <= rho k) /\ M' = M /\ 0 < sumn M rho ->
     exists share, multi_rhos (tab M' beta) (tab M rho) = Ok (tab M share) /\
       (forall k, (k < M)%nat -> 0 <= share k /\ share k * sumn M rho = rho k) /\ sumn M share = 1) /\
  (~ ((forall k, (k < M)%nat -> 0 <= rho k) /\ M' = M /\ 0 < sumn M rho) -> multi_rhos (tab M' beta) (tab M rho) = Err ValueError).
Proof.
  intros M M' beta rho HM. unfold multi_rhos. rewrite !tab_length, Rsum_tab. destruct (Nat.eqb_spec M 0) as [|_]; [lia|]. cbn [negb andb].
  destruct (existsb _ _) eqn:X.
  - apply existsb_tab in X as (k & Hk & X). apply Rltb_true in X. split; [|reflexivity]. intros (H & _). specialize (H k Hk). lra.
  - assert (Hp : forall k, (k < M)%nat -> 0 <= rho k).
    { intros k Hk. destruct (Rle_dec 0 (rho k)); auto. exfalso. assert (existsb (fun r => Rltb r 0) (tab M rho) = true); [|congruence].
      apply existsb_tab. exists k. split; auto. apply Rltb_true. lra. }
    assert (H0 : 0 <= sumn M rho) by (apply sumn_nonneg; auto).
    cbn [raise_if bind]. destruct (Nat.eqb_spec M' M); cbn [negb raise_if bind]; [|split; [intros (_ & ? & _); congruence|reflexivity]].
    destruct (Reqb (sumn M rho) 0) eqn:Z; cbn [raise_if bind].
    + apply Reqb_true in Z. split; [intros (_ & _ & ?); lra|reflexivity].
    + apply Reqb_false in Z. split; [|intros H; exfalso; apply H; repeat split; auto; lra]. intros _. exists (fun k => rho k / sumn M rho). rewrite map_tab. split; [reflexivity|]. split.
      * intros k Hk. split; [apply Rmult_le_pos; [auto|left; apply Rinv_0_lt_compat; lra]|field; auto].
      * unfold Rdiv. rewrite sumn_scal_r. field. auto.
Qed.

(** Ten equal shares of sixteen rounds: the first nine strata get two rounds each and no log can be generated. *)
Theorem C60_negative_last : forall tn uniform argsort d beta context gumbel binom,
  strata_sizes 16 (tab 10 (fun _ => 1 / 10)) = [2; 2; 2; 2; 2; 2; 2; 2; 2; -2]%Z /\
  multi_batch tn uniform argsort d (tab 10 beta) (tab 10 (fun _ => 1 / 10)) 16 context gumbel binom = Err ValueError.
Proof.
  intros. assert (E : strata_sizes 16 (tab 10 (fun _ => 1 / 10)) = [2; 2; 2; 2; 2; 2; 2; 2; 2; -2]%Z).
  { rewrite strata_sizes_tab by lia. assert (X : round_half_even (INR 16 * (1 / 10)) = 2%Z).
    { apply C60_rounding. unfold nearest_even. replace (INR 16) with 16 by (rewrite INR_IZR_INZ; reflexivity). rewrite Rabs_right by lra. split; [lra|intros; lra]. }
    unfold size_of, tab. cbn [map seq Nat.eqb zsumn Nat.sub]. rewrite X. reflexivity. }
  split; [exact E|]. unfold multi_batch. change (check_scalar_Z 16 (Some 1%Z) None) with (Ok tt). cbn [bind]. rewrite tab_length. cbn [Nat.eqb raise_if bind].
  change (Z.to_nat 16) with 16%nat. rewrite E. reflexivity.
Qed.

Lemma sumn_ge_term n f k : (k < n)%nat -> (forall i, (i < n)%nat -> 0 <= f i) -> f k <= sumn n f.
Proof.
  intros Hk H. induction n as [|n IH]; [lia|]. cbn [sumn]. destruct (Nat.eq_dec k n) as [->|].
  - assert (0 <= sumn n f) by (apply sumn_nonneg; auto). lra.
  - assert (0 <= f n) by auto. assert (f k <= sumn n f) by (apply IH; [lia|auto]). lra.
Qed.

(** The average policy is a distribution, close to the mixture the strata actually realise. *)
Lemma full_boltzmann_dist K beta lg : (0 < K)%nat -> (forall a, 0 < full_boltzmann K beta lg a) /\ sumn K (full_boltzmann K beta lg) = 1.
Proof.
  intros HK. assert (D : 0 < sumn K (fun b => exp (beta * lg b))).
  { rewrite <- sum_over_seq. apply sum_over_pos; [destruct K; [lia|discriminate]|intros; apply exp_pos]. }
  split.
  - intros a. unfold full_boltzmann. apply Rdiv_lt_0_compat; [apply exp_pos|auto].
  - unfold full_boltzmann, Rdiv. rewrite sumn_scal_r. field. lra.
Qed.

Theorem C60_average_policy : forall n K M (beta rho : nat -> R) lg size, (0 < n)%nat -> (0 < K)%nat -> (0 < M)%nat ->
  (forall k, (k < M)%nat -> 0 <= rho k) -> sumn M rho = 1 -> strata_sizes n (tab M rho) = tab M size ->
  let average a := sumn M (fun k => rho k * full_boltzmann K (beta k) lg a) in
  let realised a := sumn M (fun k => IZR (size k) / INR n * full_boltzmann K (beta k) lg a) in
  (forall a, 0 < average a) /\ sumn K average = 1 /\ forall a, (a < K)%nat -> Rabs (average a - realised a) <= INR (M - 1) / INR n.
Proof.
  intros n K M beta rho lg size Hn HK HM Hr Hs Esz average realised.
  assert (Hp : forall k a, 0 < full_boltzmann K (beta k) lg a) by (intros k a; apply full_boltzmann_dist; auto). split; [|split].
  - intros a. unfold average. assert (Hex : exists k, (k < M)%nat /\ 0 < rho k).
    { destruct (Exists_dec (fun k => 0 < rho k) (seq 0 M)) as [E|E].
      - intros k. destruct (Rlt_dec 0 (rho k)); auto.
      - apply Exists_exists in E as (k & Hk & Hkr). apply in_seq in Hk. exists k. split; [lia|auto].
      - exfalso. assert (sumn M rho = 0); [|lra]. apply sumn_zero. intros k Hk. specialize (Hr k Hk). destruct (Rlt_dec 0 (rho k)) as [G|G]; [|lra].
        exfalso. apply E. apply Exists_exists. exists k. split; [apply in_seq; lia|auto]. }
    destruct Hex as (k & Hk & Hkr). apply (sumn_pos M _ k); auto.
    + intros j Hj. apply Rmult_le_pos; [auto|left; auto].
    + apply Rmult_lt_0_compat; auto.
  - unfold average. rewrite sumn_swap. rewrite (sumn_ext M _ rho); [exact Hs|]. intros k Hk. rewrite sumn_scal. rewrite (proj2 (full_boltzmann_dist K (beta k) lg HK)). ring.
  - intros a Ha. unfold average, realised. rewrite <- sumn_minus.
    assert (P1 : forall k, full_boltzmann K (beta k) lg a <= 1).
    { intros k. rewrite <- (proj2 (full_boltzmann_dist K (beta k) lg HK)). apply sumn_ge_term; auto. intros b Hb. left. auto. }
    assert (Hn' : 0 < INR n) by (apply INR_pos; auto).
    destruct (C60_sizes n M rho HM) as (size' & E' & S1 & S2). rewrite Esz in E'. assert (EQ := tab_inj _ _ _ E').
    assert (B : forall m, (m < M)%nat -> Rabs (sumn m (fun k => rho k * full_boltzmann K (beta k) lg a - IZR (size k) / INR n * full_boltzmann K (beta k) lg a)) <= INR m / 2 / INR n).
    { induction m as [|m IH]; intros Hm; cbn [sumn]; [rewrite Rabs_R0; cbn; lra|]. eapply Rle_trans; [apply Rabs_triang|]. rewrite S_INR.
      specialize (IH ltac:(lia)). replace ((INR m + 1) / 2 / INR n) with (INR m / 2 / INR n + 1 / 2 / INR n) by (field; lra). apply Rplus_le_compat; [exact IH|].
      destruct (S1 m ltac:(lia)) as [G _]. rewrite <- EQ in G by lia.
      replace (rho m * full_boltzmann K (beta m) lg a - IZR (size m) / INR n * full_boltzmann K (beta m) lg a)
        with ((INR n * rho m - IZR (size m)) * (full_boltzmann K (beta m) lg a / INR n)) by (field; lra).
      rewrite Rabs_mult, Rabs_minus_sym. change (1 / 2 / INR n) with (1 / 2 * / INR n). rewrite (Rabs_right (_ / INR n)).
      - apply Rmult_le_compat; [apply Rabs_pos|apply Rmult_le_pos; [left; auto|left; apply Rinv_0_lt_compat; auto]|exact G|].
        unfold Rdiv. rewrite <- (Rmult_1_l (/ INR n)) at 2. apply Rmult_le_compat_r; [left; apply Rinv_0_lt_compat; auto|apply P1].
      - apply Rle_ge. apply Rmult_le_pos; [left; auto|left; apply Rinv_0_lt_compat; auto]. }
    assert (HL := C60_last n M rho size HM Hs Esz). destruct M as [|M]; [lia|]. replace (S M - 1)%nat with M in * by lia. cbn [sumn]. eapply Rle_trans; [apply Rabs_triang|].
    replace (INR M / INR n) with (INR M / 2 / INR n + INR M / 2 * / INR n) by (field; lra). apply Rplus_le_compat; [apply B; lia|].
    replace (rho M * full_boltzmann K (beta M) lg a - IZR (size M) / INR n * full_boltzmann K (beta M) lg a)
      with ((INR n * rho M - IZR (size M)) * (full_boltzmann K (beta M) lg a / INR n)) by (field; lra).
    rewrite Rabs_mult, Rabs_minus_sym. rewrite (Rabs_right (_ / INR n)).
    + apply Rmult_le_compat; [apply Rabs_pos|apply Rmult_le_pos; [left; auto|left; apply Rinv_0_lt_compat; auto]|exact HL|].
      unfold Rdiv. rewrite <- (Rmult_1_l (/ INR n)) at 2. apply Rmult_le_compat_r; [left; apply Rinv_0_lt_compat; auto|apply P1].
    + apply Rle_ge. apply Rmult_le_pos; [left; auto|left; apply Rinv_0_lt_compat; auto].
Qed.

(** With deficient actions the logged average policy gives positive probability to actions that no logging policy plays. *)
Theorem C60_deficient_average : forall tn uniform argsort d n M beta rho size context g binom m b,
  sorts argsort -> (forall i, 0 <= uniform (ds_seed d) i < 1) -> (0 < ds_deficient d < ds_K d)%nat -> (0 < n)%nat -> (0 < M)%nat -> length context = n ->
  mean_table d context n m -> strata_sizes n (tab M rho) = tab M size -> (forall k, (k < M)%nat -> 0 <= rho k) -> sumn M rho = 1 ->
  multi_batch tn uniform argsort d (tab M beta) (tab M rho) (Z.of_nat n) context (tabR2 n (ds_K d) g) binom = Ok b ->
  forall i, (i < n)%nat -> exists a, (a < ds_K d)%nat /\
    nth a (nth i (b_pi (mb_batch b)) []) [] = [0] /\ 0 < nth a (nth i (mb_pi_avg b) []) 0.
Proof.
  intros * Hs Hu Hd Hn HM HL Hm Esz Hr Hr1 Hrun i Hi.
  destruct (C60_batch tn uniform argsort d n M beta rho size context g binom m Hs Hu ltac:(lia) Hn HM HL Hm Esz) as [Hneg Hpos].
  assert (Hp : forall k, (k < M)%nat -> (0 <= size k)%Z).
  { intros k Hk. destruct (Z_lt_le_dec (size k) 0) as [G|G]; auto. rewrite Hneg in Hrun by eauto. discriminate. }
  destruct (Hpos Hp) as (pi & act & S & stratum & Hlog & _ & H1 & H2 & H3).
  assert (E : b_pi (mb_batch b) = tab n (fun i => tab (ds_K d) (fun a => [pi i a])) /\
              mb_pi_avg b = tabR2 n (ds_K d) (fun i a => sumn M (fun k => rho k * full_boltzmann (ds_K d) (beta k) (fun a => reported tn d (m i a)) a))).
  { destruct (ds_binary d) eqn:Eb.
    - destruct (Exists_dec (fun i => ~ (0 <= reported tn d (m i (act i)) <= 1)) (seq 0 n)) as [X|X].
      + intros j. destruct (Rle_dec 0 (reported tn d (m j (act j)))), (Rle_dec (reported tn d (m j (act j))) 1); [right|left|left|left]; lra.
      + apply Exists_exists in X as (j & Hj & X). apply in_seq in Hj. rewrite H2 in Hrun; [discriminate|auto|exists j; split; [lia|auto]].
      + rewrite H1 in Hrun; auto.
        * injection Hrun as <-. auto.
        * intros j Hj. destruct (Rle_dec 0 (reported tn d (m j (act j)))) as [A|A], (Rle_dec (reported tn d (m j (act j))) 1) as [B|B]; auto; exfalso; apply X; apply Exists_exists; exists j; (split; [apply in_seq; lia|lra]).
    - rewrite H3 in Hrun by auto. injection Hrun as <-. auto. }
  destruct E as [-> ->]. destruct (Hlog i Hi) as ((ND & LS & HS & _) & (_ & Hz) & _).
  assert (Hex : exists a, (a < ds_K d)%nat /\ ~ In a (S i)).
  { destruct (Forall_Exists_dec (fun a => In a (S i))) with (l := seq 0 (ds_K d)) as [F|F].
    - intros a. destruct (in_dec Nat.eq_dec a (S i)); auto.
    - exfalso. rewrite Forall_forall in F. assert (length (seq 0 (ds_K d)) <= length (S i))%nat by (apply NoDup_incl_length; [apply seq_NoDup|exact F]). rewrite seq_length in H. lia.
    - apply Exists_exists in F as (a & Ha & Na). apply in_seq in Ha. exists a. split; [lia|auto]. }
  destruct Hex as (a & Ha & Na). exists a. split; auto. unfold tabR2. rewrite !nth_tab by auto. rewrite Hz by auto. split; [reflexivity|].
  apply (C60_average_policy n (ds_K d) M beta rho (fun a => reported tn d (m i a)) size); auto. lia.
Qed.

(** Two logging policies with shares 1/2: four rounds, two each. *)
Example C60_example : sorts insertion_argsort /\ strata_sizes 4 (tab 2 (fun _ => 1 / 2)) = tab 2 (fun _ => 2%Z) /\ sumn 2 (fun _ => 1 / 2) = 1 /\
  (0 < ds_deficient ex_data < ds_K ex_data)%nat /\ mean_table ex_data (repeat [0] 4) 4 (fun _ a => INR a / 4).
Proof.
  split; [apply insertion_argsort_sorts|]. split; [|split; [cbn; lra|split; [cbn; lia|apply (C58_example 4); lia]]].
  rewrite (C60_exact 4 2 (fun _ => 1 / 2) (fun _ => 2%nat)); [reflexivity|lia|cbn; lra|]. intros. cbn. lra.
Qed.

Print Assumptions C60_rounding.
Print Assumptions C60_sizes.
Print Assumptions C60_last.
Print Assumptions C60_exact.
Print Assumptions C60_batch.
Print Assumptions C60_constructor.
Print Assumptions C60_negative_last.
Print Assumptions C60_average_policy.
Print Assumptions C60_deficient_average.
