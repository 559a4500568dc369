(** * P_Data: the synthetic data generators (C58, C59, C106, C107). *)

From Coq Require Import String Reals List ZArith Lia Lra Bool Permutation.
From Verif Require Import Num NpList M_Utils M_Estimators M_Data S_Base S_Prob S_Estimators S_Env S_Data
  L_Num L_Base L_Utils L_EstProps L_Examples L_Data P_Utils P_Estimators.
Import ListNotations.
Open Scope R_scope.

(** ** C58 *)

(** What a batch looks like: the reported expected rewards are [q], the behaviour policy [pi] plays the softmax policy on
    the actions [S i] selected for round i, the logged action is the inverse-CDF draw at the i-th uniform number. *)
Definition logged_by (d : synth) (n : nat) (u : nat -> R) (g lg pi : nat -> nat -> R) (act : nat -> nat) (S : nat -> list nat) : Prop :=
  forall i, (i < n)%nat ->
    selected (ds_K d) (ds_K d - ds_deficient d) (g i) (S i) /\ softmax_on (ds_K d) (S i) (ds_beta d) (lg i) (pi i) /\
    (forall a, (a < ds_K d)%nat -> 0 <= pi i a) /\ sumn (ds_K d) (pi i) = 1 /\
    (forall a, (a < ds_K d)%nat -> (0 < pi i a <-> In a (S i))) /\
    (act i < ds_K d)%nat /\ 0 < pi i (act i) /\
    (forall a, (a < ds_K d)%nat -> (act i = a <-> sumn a (pi i) <= u i < sumn a (pi i) + pi i a)).

Lemma behaviour_draw argsort d n g lg (u : nat -> R) : sorts argsort -> (ds_deficient d < ds_K d)%nat -> (forall i, (i < n)%nat -> 0 <= u i < 1) ->
  exists pi act S, logged_by d n u g lg pi act S /\
    behaviour argsort (ds_K d) (ds_deficient d) (repeat (ds_beta d) n) (tabR2 n (ds_K d) g) (tabR2 n (ds_K d) lg) = tabR2 n (ds_K d) pi /\
    sample_action_fast (tabR2 n (ds_K d) pi) (tab n u) = tab n act.
Proof.
  intros Hs Hd Hu. destruct (behaviour_ok argsort n (ds_K d) (ds_deficient d) (fun _ => ds_beta d) g lg Hs Hd) as (pi & S & E & H).
  assert (D : forall i, (i < n)%nat -> (forall a, (a < ds_K d)%nat -> 0 <= pi i a) /\ sumn (ds_K d) (pi i) = 1 /\ (forall a, (a < ds_K d)%nat -> (0 < pi i a <-> In a (S i)))).
  { intros i Hi. destruct (H i Hi) as (Hsel & Hsm & Hr). eapply softmax_on_dist; eauto. destruct Hsel as (_ & HL & _). intros E0. rewrite E0 in HL. cbn in HL. lia. }
  destruct (C03_inverse_cdf n (ds_K d) pi u) as (act & Ea & H1 & H2); auto.
  { intros i a Hi Ha. apply D; auto. } { intros i Hi. apply D; auto. }
  exists pi, act, S. split; [|split; auto; rewrite repeat_is_tab; exact E].
  intros i Hi. destruct (H i Hi) as (Hsel & Hsm & _). destruct (D i Hi) as (D1 & D2 & D3). destruct (H1 i Hi) as (A1 & _ & A2).
  repeat (split; [solve [auto]|]). auto.
Qed.

Theorem C58_batch : forall tn uniform argsort d n context g binom m lg,
  sorts argsort -> (forall i, 0 <= uniform (ds_seed d) i < 1) -> (ds_deficient d < ds_K d)%nat -> (0 < n)%nat -> length context = n ->
  mean_table d context n m -> logit_table d context n (fun i a => reported tn d (m i a)) lg ->
  let q i a := reported tn d (m i a) in
  exists pi act S, logged_by d n (uniform (ds_seed d)) g lg pi act S /\
    let run := synth_batch tn uniform argsort d (Z.of_nat n) context (tabR2 n (ds_K d) g) binom in
    let log rewards := {| b_n := n; b_actions := ds_K d; b_context := context; b_action := tab n act; b_reward := tab n rewards;
      b_expected := tabR2 n (ds_K d) q; b_pi := tab n (fun i => tab (ds_K d) (fun a => [pi i a])); b_pscore := tab n (fun i => pi i (act i)) |} in
    (ds_binary d = true -> (forall i, (i < n)%nat -> 0 <= q i (act i) <= 1) ->
       run = Ok (log (fun i => if binom i (q i (act i)) then 1 else 0))) /\
    (ds_binary d = true -> (exists i, (i < n)%nat /\ ~ (0 <= q i (act i) <= 1)) -> run = Err ValueError) /\
    (ds_binary d = false ->
       run = Ok (log (fun i => let mu := q i (act i) in
         tn_rvs tn (ds_seed d) ((0 - mu) / ds_std d) ((ds_max d - mu) / ds_std d) mu (ds_std d) i))).
Proof.
  intros tn uniform argsort d n context g binom m lg Hs Hu Hd Hn HL Hm Hlg q.
  destruct (behaviour_draw argsort d n g lg (uniform (ds_seed d)) Hs Hd) as (pi & act & S & Hlog & Eb & Ea); [auto|].
  exists pi, act, S. split; [exact Hlog|]. cbv zeta. unfold synth_batch. unfold check_scalar_Z.
  destruct (Z.ltb_spec (Z.of_nat n) 1); [lia|]. cbn [raise_if bind]. rewrite Nat2Z.id.
  assert (Ec := corrected_tab tn d context n m HL Hm).
  rewrite (logits_tab d context n _ lg (corrected tn d context) Hlg Ec). rewrite Eb. rewrite Ec.
  change (map (uniform (ds_seed d)) (seq 0 n)) with (tab n (uniform (ds_seed d))). rewrite Ea.
  assert (Ha : forall i, (i < n)%nat -> (act i < ds_K d)%nat) by (intros i Hi; apply (Hlog i Hi)).
  rewrite pick_cols_tab by auto.
  replace (map (map (fun v => [v])) (tabR2 n (ds_K d) pi)) with (tab n (fun i => tab (ds_K d) (fun a => [pi i a])))
    by (unfold tabR2; rewrite map_tab; apply tab_ext; intros; rewrite map_tab; reflexivity).
  destruct (sample_given_tab tn binom d n q act Ha) as (G1 & G2 & G3). fold q. split; [|split]; intros Hb; [intros H1|intros H1|].
  - rewrite G2 by auto. reflexivity.
  - rewrite G3 by auto. reflexivity.
  - rewrite G1 by auto. reflexivity.
Qed.

(** A dataset with at least one round is refused for fewer rounds. *)
Theorem C58_no_rounds : forall tn uniform argsort d n context g binom, (n < 1)%Z ->
  synth_batch tn uniform argsort d n context g binom = Err ValueError.
Proof. intros. unfold synth_batch, check_scalar_Z. destruct (Z.ltb_spec n 1); [reflexivity|lia]. Qed.

(** The constructor accepts exactly these parameters. *)
Theorem C58_init : forall K dim rt f free std rows beta df beh seed,
  (exists d, synth_init K dim rt f free std rows beta df beh seed = Ok d) <->
  ((2 <= K)%Z /\ (1 <= dim)%Z /\ (0 <= df < K)%Z /\ seed <> None /\ (rt = "binary" \/ rt = "continuous")%string /\ 0 <= std /\
   (forall r, rows = Some r -> Z.of_nat r = K)).
Proof.
  intros. unfold synth_init, check_scalar_Z, check_scalar, nlt. cbn [bind].
  split.
  - intros [d H]. destruct (Z.ltb_spec K 2); [discriminate|]. destruct (Z.ltb_spec dim 1); [discriminate|].
    cbn [raise_if bind] in H. destruct (Z.ltb_spec df 0); [discriminate|]. cbn [raise_if bind] in H. destruct (Z.ltb_spec (K - 1) df); [discriminate|]. cbn [raise_if bind] in H.
    destruct seed as [sd|]; [|discriminate]. destruct (String.eqb rt "binary") eqn:E1, (String.eqb rt "continuous") eqn:E2; cbn [orb negb raise_if bind] in H; try discriminate.
    all: destruct (Rltb std 0) eqn:E3; [discriminate|]; cbn [raise_if bind] in H; apply Rltb_false in E3.
    all: rewrite ?String.eqb_eq in *.
    all: repeat (split; [lia || lra || congruence || auto|]); intros r ->; destruct (Z.eqb_spec (Z.of_nat r) K); [auto|discriminate].
  - intros (H1 & H2 & H3 & H4 & H5 & H6 & H7). destruct (Z.ltb_spec K 2); [lia|]. destruct (Z.ltb_spec dim 1); [lia|]. destruct (Z.ltb_spec df 0); [lia|].
    destruct (Z.ltb_spec (K - 1) df); [lia|]. destruct seed as [sd|]; [|congruence].
    rewrite (proj2 (Rltb_false std 0)) by lra.
    assert (E : (String.eqb rt "binary" || String.eqb rt "continuous")%bool = true) by (rewrite orb_true_iff, !String.eqb_eq; auto).
    rewrite E. cbn [negb raise_if bind]. destruct rows as [r|]; [|cbn [bind]; eauto]. rewrite (proj2 (Z.eqb_eq _ _) (H7 r eq_refl)). cbn [negb raise_if bind]. eauto.
Qed.

(** ** C106: every batch reuses the seed *)

Lemma synth_batch_inv tn uniform argsort d n context gumbel binom b : synth_batch tn uniform argsort d n context gumbel binom = Ok b ->
  exists pi_b, b_pi b = map (map (fun v => [v])) pi_b /\ b_action b = sample_action_fast pi_b (tab (b_n b) (uniform (ds_seed d))) /\
    pi_b = behaviour argsort (ds_K d) (ds_deficient d) (repeat (ds_beta d) (b_n b)) gumbel
             (match ds_beh d with None => corrected tn d context | Some f => f context end) /\
    b_n b = Z.to_nat n /\ sample_given tn binom d (corrected tn d context) (b_action b) = Ok (b_reward b) /\ b_pscore b = pick_cols pi_b (b_action b) /\
    b_expected b = corrected tn d context.
Proof.
  unfold synth_batch. destruct (check_scalar_Z n _ _); cbn [bind]; [|discriminate]. destruct (sample_given _ _ _ _ _) as [r|] eqn:E; cbn [bind]; [|discriminate].
  intros [= <-]. cbn [b_pi b_action b_n b_reward b_pscore b_expected]. eexists. split; [reflexivity|]. split; [reflexivity|]. auto.
Qed.

Lemma sample_fast_length p us : length (sample_action_fast p us) = Nat.min (length p) (length us).
Proof. unfold sample_action_fast. rewrite map_length, combine_length. reflexivity. Qed.

Lemma singletons_inj (p q : list R) : map (fun v => [v]) p = map (fun v => [v]) q -> p = q.
Proof. revert q. induction p as [|x p IH]; intros [|y q]; cbn; try discriminate; auto. intros [= -> E]. f_equal. auto. Qed.

(** Two batches of the same dataset, whatever the contexts and reward draws: in a round in which the behaviour policy
    is the same the same action is logged. *)
Theorem C106_repeated_actions : forall tn uniform argsort d n1 context1 gumbel1 binom1 b1 n2 context2 gumbel2 binom2 b2 i,
  synth_batch tn uniform argsort d n1 context1 gumbel1 binom1 = Ok b1 ->
  synth_batch tn uniform argsort d n2 context2 gumbel2 binom2 = Ok b2 ->
  (i < length (b_action b1))%nat -> (i < length (b_action b2))%nat -> nth i (b_pi b1) [] = nth i (b_pi b2) [] ->
  nth i (b_action b1) 0%nat = nth i (b_action b2) 0%nat.
Proof.
  intros * H1 H2 L1 L2 E. apply synth_batch_inv in H1 as (p1 & P1 & A1 & _). apply synth_batch_inv in H2 as (p2 & P2 & A2 & _).
  rewrite A1 in *. rewrite A2 in *. rewrite sample_fast_length, tab_length in L1, L2.
  assert (G : forall p (u : nat -> R) k, (i < length p)%nat -> (i < k)%nat -> nth i (sample_action_fast p (tab k u)) 0%nat = sample_action_row (nth i p []) (u i)).
  { intros p u k Hi Hk. unfold sample_action_fast.
    rewrite (nth_indep _ 0%nat ((fun q => sample_action_row (fst q) (snd q)) ([], 0))) by (rewrite map_length, combine_length, tab_length; lia).
    rewrite (map_nth (fun q => sample_action_row (fst q) (snd q))).
    assert (X : nth_error (combine p (tab k u)) i = Some (nth i p [], u i)).
    { clear L1 L2 E. revert k u i Hi Hk. induction p as [|x p IH]; intros k u j Hi Hk; cbn [length] in Hi; [lia|]. destruct k as [|k]; [lia|]. rewrite tab_S_first. cbn [combine].
      destruct j as [|j]; cbn [nth_error nth]; [reflexivity|]. rewrite (IH k (fun j => u (Datatypes.S j)) j) by lia. reflexivity. }
    rewrite (nth_error_nth _ _ _ X). reflexivity. }
  rewrite !G by lia. f_equal. rewrite P1, P2 in E. rewrite !(nth_indep (map _ _) [] (map (fun v => [v]) [])) in E by (rewrite map_length; lia).
  rewrite !(map_nth (map (fun v => [v]))) in E. apply singletons_inj. exact E.
Qed.

(** A dataset without contextual reward function and behaviour policy and without deficient actions: all batches of
    one size have the same actions and propensities, and with continuous rewards the same rewards. *)
Theorem C106_identical_batches : forall tn uniform argsort d n context1 gumbel1 binom1 b1 context2 gumbel2 binom2 b2,
  ds_fun d = None -> ds_beh d = None -> ds_deficient d = 0%nat -> length context1 = length context2 ->
  synth_batch tn uniform argsort d n context1 gumbel1 binom1 = Ok b1 ->
  synth_batch tn uniform argsort d n context2 gumbel2 binom2 = Ok b2 ->
  b_action b1 = b_action b2 /\ b_pi b1 = b_pi b2 /\ b_pscore b1 = b_pscore b2 /\ b_expected b1 = b_expected b2 /\
  (ds_binary d = false -> b_reward b1 = b_reward b2).
Proof.
  intros * Hf Hb Hd HL H1 H2. apply synth_batch_inv in H1 as (p1 & P1 & A1 & Q1 & N1 & R1 & S1 & E1). apply synth_batch_inv in H2 as (p2 & P2 & A2 & Q2 & N2 & R2 & S2 & E2).
  assert (C : corrected tn d context1 = corrected tn d context2) by (unfold corrected, calc_expected_reward; rewrite Hf, HL; reflexivity).
  assert (P : p1 = p2) by (rewrite Q1, Q2, Hb, C, N1, N2; unfold behaviour; rewrite Hd; reflexivity). clear Q1 Q2. subst p2.
  assert (A : b_action b1 = b_action b2) by (rewrite A1, A2, N1, N2; reflexivity).
  split; auto. split; [congruence|]. split; [congruence|]. split; [congruence|]. intros Hbin. rewrite A, C in R1.
  unfold sample_given in R1, R2. rewrite Hbin in R1, R2. congruence.
Qed.

(** ** C59 *)

Lemma column0 n K L (pi : nat -> nat -> nat -> R) : (0 < L)%nat -> mapM (mapM (fun c => np_get c 0%Z)) (tab3F n K L pi) = Ok (tab2F n K (fun i a => pi i a 0%nat)).
Proof.
  intros HL. unfold tab3F, tab2F, tabF. apply mapM_tab. intros i Hi. apply mapM_tab. intros a Ha.
  change 0%Z with (Z.of_nat 0). rewrite (np_get_tab L (fun s => Fin (pi i a s)) 0) by auto. reflexivity.
Qed.

Theorem C59_value : forall n K L (q : nat -> nat -> R) (pi : nat -> nat -> nat -> R), (0 < n)%nat -> (0 < L)%nat ->
  (forall i, (i < n)%nat -> sumn K (fun a => pi i a 0%nat) <> 0) ->
  ground_truth (tab2F n K q) (tab3F n K L pi)
  = Ok (Fin (avg n (fun i => sumn K (fun a => pi i a 0%nat * q i a) / sumn K (fun a => pi i a 0%nat)))).
Proof.
  intros n K L q pi Hn HL Hw. unfold ground_truth.
  assert (E0 : length (nth 0 (tab2F n K q) []) = dim1 (tab3F n K L pi)).
  { destruct n; [lia|]. unfold tab2F, tab3F, tabF. rewrite !tab_S_first. cbn [nth dim1]. unfold tab2F. rewrite !tab_length. reflexivity. }
  assert (E1 : length (tab2F n K q) = length (tab3F n K L pi)) by (unfold tab2F, tab3F; rewrite !tab_length; reflexivity).
  rewrite E0, E1, !Nat.eqb_refl. cbn [negb raise_if bind]. rewrite column0 by auto. cbn [bind]. rewrite np_average_axis1_tab by auto. cbn [bind].
  f_equal. rewrite nmean_tabF by auto. f_equal. unfold avg. f_equal. apply sumn_ext.
  intros i Hi. f_equal. apply sumn_ext. intros a Ha. ring.
Qed.

(** For evaluation policies it is the policy value, between the smallest and the largest expected reward. *)
Theorem C59_policy_value : forall n K L (q : nat -> nat -> R) (pi : nat -> nat -> nat -> R) lo hi, (0 < n)%nat -> (0 < L)%nat ->
  (forall i a, (i < n)%nat -> (a < K)%nat -> 0 <= pi i a 0%nat) -> (forall i, (i < n)%nat -> sumn K (fun a => pi i a 0%nat) = 1) ->
  (forall i a, (i < n)%nat -> (a < K)%nat -> lo <= q i a <= hi) ->
  exists v, ground_truth (tab2F n K q) (tab3F n K L pi) = Ok (Fin v) /\
    v = avg n (fun i => sumn K (fun a => pi i a 0%nat * q i a)) /\ lo <= v <= hi.
Proof.
  intros n K L q pi lo hi Hn HL H0 H1 Hq. eexists. split; [|split; [reflexivity|]].
  - rewrite C59_value by (auto; intros i Hi; rewrite H1 by auto; lra). f_equal. f_equal. unfold avg. f_equal. apply sumn_ext. intros i Hi. rewrite H1 by auto. field.
  - apply avg_bounds; auto. intros i Hi. split.
    + replace lo with (sumn K (fun a => pi i a 0%nat * lo)) by (rewrite sumn_scal_r, H1 by auto; ring). apply sumn_le. intros a Ha. apply Rmult_le_compat_l; [auto|]. apply Hq; auto.
    + replace hi with (sumn K (fun a => pi i a 0%nat * hi)) by (rewrite sumn_scal_r, H1 by auto; ring). apply sumn_le. intros a Ha. apply Rmult_le_compat_l; [auto|]. apply Hq; auto.
Qed.

Lemma mapM_first_err {A B} (f : A -> res B) l e : (forall x, In x l -> (exists y, f x = Ok y) \/ f x = Err e) -> (exists x, In x l /\ f x = Err e) -> mapM f l = Err e.
Proof.
  induction l as [|x l IH]; intros H (z & Hz & Ez); [destruct Hz|]. cbn [mapM]. destruct (H x (or_introl eq_refl)) as [[y Ey]|Ey]; rewrite Ey; cbn [bind]; [|reflexivity].
  rewrite IH; [reflexivity| |].
  - intros w Hw. apply H. right. auto.
  - destruct Hz as [->|Hz]; [congruence|]. exists z. auto.
Qed.

Theorem C59_rejects : forall n n' K K' L (q : nat -> nat -> R) (pi : nat -> nat -> nat -> R), (0 < n)%nat ->
  (n <> n' -> ground_truth (tab2F n K q) (tab3F n' K' L pi) = Err ValueError) /\
  (K <> K' -> ground_truth (tab2F n K q) (tab3F n K' L pi) = Err ValueError) /\
  ((0 < L)%nat -> (exists i, (i < n)%nat /\ sumn K (fun a => pi i a 0%nat) = 0) -> ground_truth (tab2F n K q) (tab3F n K L pi) = Err ZeroDivisionError).
Proof.
  intros n n' K K' L q pi Hn. unfold ground_truth.
  assert (E1 : forall k, length (tab3F k K' L pi) = k) by (intros; unfold tab3F; apply tab_length).
  assert (E2 : length (tab2F n K q) = n) by (unfold tab2F; apply tab_length).
  assert (E0 : forall M, length (nth 0 (tab2F n K q) []) = K /\ dim1 (tab3F n M L pi) = M).
  { intros M. destruct n; [lia|]. unfold tab2F, tab3F, tabF. rewrite !tab_S_first. cbn [nth dim1]. unfold tab2F. rewrite !tab_length. auto. }
  split; [|split].
  - intros H. rewrite E1, E2. rewrite (proj2 (Nat.eqb_neq n n')) by auto. reflexivity.
  - intros H. rewrite E1, E2, Nat.eqb_refl. cbn [negb raise_if bind]. rewrite (proj1 (E0 K')), (proj2 (E0 K')). rewrite (proj2 (Nat.eqb_neq K K')) by auto. reflexivity.
  - intros HL (i & Hi & H). rewrite (proj1 (E0 K)), (proj2 (E0 K)), E2.
    replace (length (tab3F n K L pi)) with n by (unfold tab3F; rewrite tab_length; reflexivity). rewrite !Nat.eqb_refl. cbn [negb raise_if bind].
    rewrite column0 by auto. cbn [bind]. unfold np_average_axis1. unfold tab2F at 1 2. rewrite !tab_length, Nat.eqb_refl. cbn [andb].
    replace (forallb _ _) with true.
    + unfold tab2F. rewrite combine_tab. rewrite (mapM_first_err _ _ ZeroDivisionError); [reflexivity| |].
      * intros x Hx. apply In_tab in Hx as (j & Hj & <-). cbn [fst snd]. destruct (Req_dec (sumn K (fun a => pi j a 0%nat)) 0) as [Ez|Ez].
        -- right. unfold np_average1. rewrite nsum_tabF, Ez. cbn [neqb]. rewrite (proj2 (Reqb_true 0 0)) by reflexivity. reflexivity.
        -- left. rewrite np_average1_tab by auto. eauto.
      * eexists. split; [apply In_tab; exists i; split; [exact Hi|reflexivity]|]. cbn [fst snd]. unfold np_average1. rewrite nsum_tabF, H. cbn [neqb]. rewrite (proj2 (Reqb_true 0 0)) by reflexivity. reflexivity.
    + symmetry. unfold tab2F, tabF. rewrite combine_tab. apply forallb_tab. intros j Hj. cbn [fst snd]. rewrite !tab_length. apply Nat.eqb_refl.
Qed.

(** The ground truth of a generated batch is what IPW estimates: contexts fixed, actions redrawn from the logged
    behaviour policy, binary rewards from the reported expected rewards. *)
Definition redraw (n K : nat) (pi q : nat -> nat -> R) (pe : nat -> nat -> nat -> R) : benv nat :=
  let row x := if Nat.ltb x n then x else 0%nat in
  {| ev_n := n; ev_K := K; ev_L := 1; ev_pos := fun _ => 0%nat; ev_ctx := fun i => [(i, 1)];
     ev_pb := fun x _ a => pi (row x) a; ev_pe := fun x a _ => pe (row x) a 0%nat;
     ev_rd := fun x _ a => let p := if Nat.ltb a K then q (row x) a else 0 in [(1, p); (0, 1 - p)] |}.

Theorem C59_unbiased : forall tn uniform argsort d n context g binom m lg b pe (qh : nat -> nat -> nat -> R),
  sorts argsort -> (forall i, 0 <= uniform (ds_seed d) i < 1) -> (ds_deficient d < ds_K d)%nat -> (0 < n)%nat -> length context = n ->
  mean_table d context n m -> logit_table d context n m lg ->
  ds_binary d = true -> (forall i a, (i < n)%nat -> (a < ds_K d)%nat -> 0 <= m i a <= 1) ->
  synth_batch tn uniform argsort d (Z.of_nat n) context (tabR2 n (ds_K d) g) binom = Ok b ->
  (forall i a, (i < n)%nat -> (a < ds_K d)%nat -> 0 <= pe i a 0%nat) -> (forall i, (i < n)%nat -> sumn (ds_K d) (fun a => pe i a 0%nat) = 1) ->
  (forall i a, (i < n)%nat -> (a < ds_K d)%nat -> 0 < pe i a 0%nat -> 0 < nth 0 (nth a (nth i (b_pi b) []) []) 0) ->
  exists pi v, b_pi b = tab n (fun i => tab (ds_K d) (fun a => [pi i a])) /\
    let e := redraw n (ds_K d) pi m pe in
    ground_truth (map (map Fin) (b_expected b)) (tab3F n (ds_K d) 1 pe) = Ok (Fin v) /\
    expects (log_dist e)
      (fun o => let l := log_of e (ev_pb e) qh o in ipw_value PInf false (rewards l) (actions l) (policy l) (Some (pscores l)) None None) v.
Proof.
  intros * Hs Hu Hd Hn HL Hm Hlg Hb Hq Hrun Hpe0 Hpe1 Hsup.
  assert (Rm : forall x, reported tn d x = x) by (intros x; unfold reported; rewrite Hb; reflexivity).
  assert (Hlg' : logit_table d context n (fun i a => reported tn d (m i a)) lg).
  { revert Hlg. unfold logit_table. destruct (ds_beh d); auto. intros H i a Hi Ha. rewrite Rm. auto. }
  destruct (C58_batch tn uniform argsort d n context g binom m lg Hs Hu Hd Hn HL Hm Hlg') as (pi & act & S & Hlog & Hok & _).
  rewrite Hok in Hrun; [|exact Hb|intros i Hi; rewrite Rm; apply Hq; auto; apply (Hlog i Hi)]. injection Hrun as <-. cbn [b_pi b_expected] in *.
  exists pi. destruct (C59_policy_value n (ds_K d) 1 m pe 0 1 Hn ltac:(lia) Hpe0 Hpe1 Hq) as (v & Ev & Vv & _). exists v. split; [reflexivity|]. cbv zeta. split.
  - rewrite <- Ev. f_equal. unfold tabR2, tab2F, tabF. rewrite map_tab. apply tab_ext. intros i Hi. rewrite map_tab. apply tab_ext. intros a Ha. rewrite Rm. reflexivity.
  - assert (Row : forall x, ((if Nat.ltb x n then x else 0) < n)%nat) by (intros x; destruct (Nat.ltb_spec x n); lia).
    set (e := redraw n (ds_K d) pi m pe).
    assert (EO : env_ok e).
    { constructor; unfold e; cbn [redraw ev_n ev_K ev_L ev_pos ev_ctx ev_pb ev_pe ev_rd]; cbv zeta.
      - auto.
      - intros. apply Nat.lt_0_1.
      - intros i Hi. split; [intros a p [[= <- <-]|[]]; lra|cbn; ring].
      - intros x _ a Ha. apply (Hlog _ (Row x)). auto.
      - intros x _. apply (Hlog _ (Row x)).
      - intros x a _ Ha. exact (Hpe0 _ a (Row x) Ha).
      - intros x _. exact (Hpe1 _ (Row x)).
      - intros x _ a. assert (0 <= (if Nat.ltb a (ds_K d) then m (if Nat.ltb x n then x else 0%nat) a else 0) <= 1)
          by (destruct (Nat.ltb_spec a (ds_K d)); [apply Hq; auto|lra]).
        split; [intros r p [[= <- <-]|[[= <- <-]|[]]]; lra|cbn; ring]. }
    assert (CS : common_support e).
    { intros x a s Ha Hp. unfold e in *. cbn in *. specialize (Hsup _ a (Row x) Ha Hp).
      rewrite nth_tab in Hsup by auto. rewrite nth_tab in Hsup by auto. exact Hsup. }
    replace v with (policy_value e).
    + apply C11_ipw_unbiased; auto. intros o. right. unfold e. cbn. auto.
    + rewrite Vv. unfold policy_value, e. cbn [redraw ev_n ev_K ev_ctx ev_pos ev_pe]. apply avg_ext. intros i Hi. unfold expect. cbn [fold_right fst snd].
      rewrite Rmult_1_r, Rplus_0_r. destruct (Nat.ltb_spec i n); [|lia]. apply sumn_ext. intros a Ha. unfold q_true, expect, redraw. cbn [ev_rd fold_right fst snd].
      destruct (Nat.ltb_spec i n); [|lia]. destruct (Nat.ltb_spec a (ds_K d)); [|lia]. ring.
Qed.

(** ** Concrete cases *)

(** Three actions with mean rewards a/4, one of them without support, inverse temperature 2. *)
Definition ex_data : synth :=
  mkSynth 3 1 true (Some (fun ctx => tabR2 (length ctx) 3 (fun _ a => INR a / 4))) [] 1 2 1 None 7 (10 ^ 10).
Definition ex_tn : truncnorm := mkTn (fun a b loc scale => loc) (fun seed a b loc scale i => loc).
Lemma ex_mean (i a : nat) : (a < 3)%nat -> 0 <= INR a / 4 <= 1.
Proof. intros H. destruct a as [|[|[|a]]]; [| | |lia]; simpl; lra. Qed.

Example C58_example : forall n, (0 < n)%nat ->
  sorts insertion_argsort /\ (forall i : nat, 0 <= 1 / 2 < 1) /\ (ds_deficient ex_data < ds_K ex_data)%nat /\
  mean_table ex_data (repeat [0] n) n (fun _ a => INR a / 4) /\
  logit_table ex_data (repeat [0] n) n (fun _ a => reported ex_tn ex_data (INR a / 4)) (fun _ a => INR a / 4).
Proof.
  intros n Hn. split; [apply insertion_argsort_sorts|]. split; [intros; lra|]. split; [cbn; lia|]. split; [|cbn; auto].
  unfold mean_table. cbn [ds_fun ex_data]. rewrite repeat_length. reflexivity.
Qed.

(** The generated batch, and an evaluation policy that plays action 2 when it is supported. *)
Example C59_example : forall g u n, (0 < n)%nat -> 0 <= u < 1 ->
  exists b, synth_batch ex_tn (fun _ _ => u) insertion_argsort ex_data (Z.of_nat n) (repeat [0] n) (tabR2 n 3 g) (fun _ _ => true) = Ok b /\
  exists pe : nat -> nat -> nat -> R, (forall i, (i < n)%nat -> sumn 3 (fun a => pe i a 0%nat) = 1) /\
    (forall i a, (i < n)%nat -> (a < 3)%nat -> 0 <= pe i a 0%nat) /\
    (forall i a, (i < n)%nat -> (a < 3)%nat -> 0 < pe i a 0%nat -> 0 < nth 0 (nth a (nth i (b_pi b) []) []) 0).
Proof.
  intros g u n Hn Hu. destruct (C58_example n Hn) as (H1 & _ & H3 & H4 & H5).
  destruct (C58_batch ex_tn (fun _ _ => u) insertion_argsort ex_data n (repeat [0] n) g (fun _ _ => true) (fun _ a => INR a / 4) (fun _ a => INR a / 4))
    as (pi & act & S & Hlog & Hok & _); auto.
  { apply repeat_length. }
  eexists. split; [apply Hok; [reflexivity|]|].
  - intros i Hi. unfold reported. cbn [ds_binary ex_data]. apply (ex_mean i). apply (Hlog i Hi).
  - exists (fun i a _ => pi i a). cbn [b_pi]. split; [|split].
    + intros i Hi. apply (Hlog i Hi).
    + intros i a Hi Ha. apply (Hlog i Hi). auto.
    + intros i a Hi Ha Hp. rewrite nth_tab by auto. rewrite nth_tab by auto. exact Hp.
Qed.

(** A context-free dataset. *)
Example C106_example :
  let d := mkSynth 2 1 true None [1 / 4; 3 / 4] 1 0 0 None 7 (10 ^ 10) in
  forall n u, (0 < n)%nat -> 0 <= u < 1 ->
  exists b, synth_batch ex_tn (fun _ _ => u) insertion_argsort d (Z.of_nat n) (repeat [0] n) (tabR2 n 2 (fun _ _ => 0)) (fun _ _ => true) = Ok b.
Proof.
  intros d n u Hn Hu.
  destruct (C58_batch ex_tn (fun _ _ => u) insertion_argsort d n (repeat [0] n) (fun _ _ => 0) (fun _ _ => true) (fun _ a => nth a [1/4; 3/4] 0) (fun _ a => nth a [1/4; 3/4] 0))
    as (pi & act & S & Hlog & Hok & _); auto.
  { apply insertion_argsort_sorts. } { cbn. lia. } { apply repeat_length. } { intros i Hi. reflexivity. } { intros i a Hi Ha. reflexivity. }
  eexists. apply Hok; [reflexivity|]. intros i Hi. assert (A : (act i < 2)%nat) by apply (Hlog i Hi). unfold reported. cbn [ds_binary d].
  generalize dependent (act i). intros a Ha. idx a; cbn; lra.
Qed.

Print Assumptions C58_batch.
Print Assumptions C58_no_rounds.
Print Assumptions C58_init.
Print Assumptions C106_repeated_actions.
Print Assumptions C106_identical_batches.
Print Assumptions C59_value.
Print Assumptions C59_policy_value.
Print Assumptions C59_rejects.
Print Assumptions C59_unbiased.
