(** * P_Slate: the slate estimators (C33-C39, C85). *)

From Coq Require Import Reals List ZArith Bool Lia Lra Sorting.
From Verif Require Import Num NpList M_Utils M_Slate S_Base S_Prob S_Estimators S_Slate L_Num L_Base L_Prob L_EstProps
  L_Examples L_Slate L_SlateEst L_SlateUnb.
Import ListNotations.
Open Scope R_scope.

(** ** C33: mean over slates of the weighted rewards *)
Theorem C33_value : forall l ids, rows_ok l -> slates l ids ->
  let v := slate_mean l ids (fun i => sl_r l i * (sl_pe l i / sl_p l i)) in
  (constant_in_slate l -> sips_value (s_ids l) (s_rew l) (s_pos l) (s_p l) (s_pe l) = Ok (Fin v)) /\
  iips_value (s_ids l) (s_rew l) (s_pos l) (s_p l) (s_pe l) = Ok (Fin v) /\
  (cascading l -> rips_value (s_ids l) (s_rew l) (s_pos l) (s_p l) (s_pe l) = Ok (Fin v)).
Proof.
  intros l ids H Hs v. split; [|split].
  - intros Hc. apply slate_value_rows; auto using check_sips_rows. exact (ipw_rounds l H).
  - apply slate_value_rows; auto using check_iips_rows. exact (ipw_rounds l H).
  - intros Hc. apply slate_value_rows; auto using check_rips_rows. exact (ipw_rounds l H).
Qed.

(** The same number computed from the rows directly. *)
Theorem C33_rows : forall l ids, rows_ok l -> slates l ids ->
  iips_value (s_ids l) (s_rew l) (s_pos l) (s_p l) (s_pe l)
  = Ok (Fin (sumn (sl_n l) (fun i => sl_r l i * (sl_pe l i / sl_p l i)) / INR (length ids))).
Proof.
  intros l ids H Hs. destruct (C33_value l ids H Hs) as (_ & -> & _). rewrite slate_mean_rows by auto. reflexivity.
Qed.

(** The confidence interval resamples the per-slate totals, in ascending slate order. *)
Theorem C33_interval : forall l ids alpha B choice, rows_ok l -> slates l ids -> StronglySorted lt ids ->
  let totals := map (fun s => Fin (slate_total l (fun i => sl_r l i * (sl_pe l i / sl_p l i)) s)) ids in
  let boot := estimate_confidence_interval_by_bootstrap totals alpha B choice in
  (constant_in_slate l -> slate_interval check_sips_inputs slate_ipw_rounds
      (s_ids l) (s_rew l) (s_pos l) (s_p l) (s_pe l) alpha B choice = boot) /\
  slate_interval check_iips_inputs slate_ipw_rounds
      (s_ids l) (s_rew l) (s_pos l) (s_p l) (s_pe l) alpha B choice = boot /\
  (cascading l -> slate_interval check_rips_inputs slate_ipw_rounds
      (s_ids l) (s_rew l) (s_pos l) (s_p l) (s_pe l) alpha B choice = boot).
Proof.
  intros l ids alpha B choice H Hs Hsort totals boot. unfold boot, totals, slate_interval.
  assert (E := slate_sums_rows l ids (fun i => sl_r l i * s_weight l i) Hs Hsort).
  split; [|split]; intros; rewrite ?check_sips_rows, ?check_iips_rows, ?check_rips_rows by auto;
    rewrite ipw_rounds by auto; simpl; rewrite E; reflexivity.
Qed.

(** The order of the rows is irrelevant. *)
Theorem C33_row_order : forall l ids s, rows_ok l -> slates l ids -> is_reordering (sl_n l) s ->
  let l' := s_reorder s l in
  (constant_in_slate l -> sips_value (s_ids l') (s_rew l') (s_pos l') (s_p l') (s_pe l')
                        = sips_value (s_ids l) (s_rew l) (s_pos l) (s_p l) (s_pe l)) /\
  iips_value (s_ids l') (s_rew l') (s_pos l') (s_p l') (s_pe l')
    = iips_value (s_ids l) (s_rew l) (s_pos l) (s_p l) (s_pe l) /\
  (cascading l -> rips_value (s_ids l') (s_rew l') (s_pos l') (s_p l') (s_pe l')
                        = rips_value (s_ids l) (s_rew l) (s_pos l) (s_p l) (s_pe l)).
Proof.
  intros l ids s H Hs Hr l'. destruct Hr as [Hr1 Hr2].
  assert (H' : rows_ok l').
  { destruct H as [H1 H2 H3 H4]. constructor; simpl; auto. }
  assert (Hs' : slates l' ids).
  { destruct Hs as [Hnd Hin]. split; auto. intros t. rewrite Hin. simpl. split.
    - intros (i & Hi & E). pose proof (reordering_perm (sl_n l) s (conj Hr1 Hr2)) as HP.
      assert (Hx : In i (map s (seq 0 (sl_n l)))).
      { eapply Permutation.Permutation_in; [apply Permutation.Permutation_sym; exact HP|]. apply in_seq. lia. }
      apply in_map_iff in Hx as (j & <- & Hj). apply in_seq in Hj. exists j. split; auto. lia.
    - intros (i & Hi & E). eauto. }
  assert (Hc : constant_in_slate l -> constant_in_slate l') by (intros Hc i j Hi Hj; apply Hc; simpl in *; auto).
  assert (Hd : cascading l -> cascading l') by (intros Hd i j Hi Hj; apply Hd; simpl in *; auto).
  destruct (C33_value l ids H Hs) as (A1 & A2 & A3). destruct (C33_value l' ids H' Hs') as (B1 & B2 & B3).
  assert (E : slate_mean l' ids (fun i => sl_r l' i * (sl_pe l' i / sl_p l' i))
            = slate_mean l ids (fun i => sl_r l i * (sl_pe l i / sl_p l i))).
  { rewrite !slate_mean_rows by auto. f_equal. simpl.
    apply (sumn_reorder (sl_n l) s (fun i => sl_r l i * (sl_pe l i / sl_p l i))). split; auto. }
  rewrite E in *. split; [|split]; intros.
  - rewrite A1, B1; auto.
  - rewrite A2, B2; auto.
  - rewrite A3, B3; auto.
Qed.

(** Two slates (ids 5 and 3), rows of position 1 and 0 interleaved. *)
Definition ex_slate : slog := {|
  sl_n := 4;
  sl_id := fun i => match i with 0 | 3 => 5 | _ => 3 end%nat;
  sl_pos := fun i => match i with 0 | 1 => 1 | _ => 0 end%nat;
  sl_r := fun i => match i with 0%nat => 3 | 1%nat => 1 | 2%nat => 0 | _ => 5 end;
  sl_p := fun _ => 1/2;
  sl_pe := fun i => match i with 0%nat | 3%nat => 1/4 | _ => 1/8 end |}.
Lemma ex_slate_rows : rows_ok ex_slate.
Proof.
  constructor; simpl; intros; try lia; try lra.
  - idx i; try lra.
  - idx i; idx j; simpl in *; try lia.
Qed.
Lemma ex_slate_slates : slates ex_slate [3; 5]%nat.
Proof.
  split.
  - constructor; simpl; [lia|]. constructor; simpl; auto. constructor.
  - intros s. simpl. split.
    + intros [<-|[<-|[]]]; [exists 1%nat|exists 0%nat]; simpl; lia.
    + intros (i & Hi & E). idx i; simpl in *; lia.
Qed.
Lemma ex_slate_constant : constant_in_slate ex_slate.
Proof. intros i j Hi Hj. simpl in *. idx i; idx j; simpl; intros; split; try lra; try lia. Qed.
Lemma ex_slate_cascading : cascading ex_slate.
Proof. intros i j Hi Hj. simpl in *. idx i; idx j; simpl; intros; split; try lra; try lia. Qed.
Example C33_example :
  iips_value (s_ids ex_slate) (s_rew ex_slate) (s_pos ex_slate) (s_p ex_slate) (s_pe ex_slate) = Ok (Fin (17/8))
  /\ StronglySorted lt [3; 5]%nat
  /\ is_reordering 4 (fun i => match i with 0 => 2 | 1 => 3 | 2 => 1 | _ => 0 end)%nat.
Proof.
  split; [|split].
  - rewrite (C33_rows ex_slate [3; 5]%nat) by (apply ex_slate_rows || apply ex_slate_slates).
    do 2 f_equal. simpl. lra.
  - repeat constructor.
  - split; intros; idx i; try idx j; simpl in *; lia.
Qed.

(** ** C34-C36: unbiasedness *)
Theorem C34_standard_unbiased : forall (X : Type) (e : senv X), senv_ok e -> slate_support e Standard ->
  expects (slate_logs e) (fun o => let l := slate_log e Standard o in
    sips_value (s_ids l) (s_rew l) (s_pos l) (s_p l) (s_pe l)) (slate_policy_value e).
Proof.
  intros X e He Hs. apply (ips_unbiased e He Standard); auto.
  intros x s t k Hk H. simpl in H. destruct (list_eq_dec _ s t); [congruence|discriminate].
Qed.
Theorem C35_independent_unbiased : forall (X : Type) (e : senv X), senv_ok e -> slate_support e Independent ->
  reward_structure e Independent ->
  expects (slate_logs e) (fun o => let l := slate_log e Independent o in
    iips_value (s_ids l) (s_rew l) (s_pos l) (s_p l) (s_pe l)) (slate_policy_value e).
Proof. intros X e He Hs Hr. exact (ips_unbiased e He Independent Hs Hr). Qed.
Theorem C36_cascade_unbiased : forall (X : Type) (e : senv X), senv_ok e -> slate_support e Cascade ->
  reward_structure e Cascade ->
  expects (slate_logs e) (fun o => let l := slate_log e Cascade o in
    rips_value (s_ids l) (s_rew l) (s_pos l) (s_p l) (s_pe l)) (slate_policy_value e).
Proof. intros X e He Hs Hr. exact (ips_unbiased e He Cascade Hs Hr). Qed.

(** Two rounds, slates of two binary actions; the reward at position 1 depends on both actions
    (cascade), or only on its own action (independent). *)
Definition ex_cond (c : R) (u : list nat) (a : nat) : R :=
  match u, a with [], 0%nat => c | [], 1%nat => 1 - c | [0%nat], 0%nat => c | [0%nat], 1%nat => 1 - c | _, 0%nat => 1/4 | _, 1%nat => 3/4 | _, _ => 0 end.
Definition ex_pol (c : R) : dist (list nat) :=
  [([0;0]%nat, c * c); ([0;1]%nat, c * (1-c)); ([1;0]%nat, (1-c) * (1/4)); ([1;1]%nat, (1-c) * (3/4))].
Definition ex_senv (inter : R) : senv bool := {|
  se_n := 2; se_L := 2;
  se_ctx := fun _ => [(true, 1/3); (false, 2/3)];
  se_mu := fun x => ex_pol (if x then 1/2 else 1/3);
  se_nu := fun _ => ex_pol (2/3);
  se_rd := fun x s => [([INR (nth 0 s 0%nat); 2 + inter * INR (nth 0 s 0%nat)], 1/2);
                       ([1; INR (nth 1 s 0%nat)], 1/2)] |}.
Lemma ex_pol_dist c : 0 < c < 1 -> is_dist (ex_pol c).
Proof.
  intros Hc. split.
  - intros a p H. simpl in H. repeat (destruct H as [[= <- <-]|H]; [nra|]). tauto.
  - unfold expect; simpl. lra.
Qed.
Lemma ex_senv_ok i : senv_ok (ex_senv i).
Proof.
  constructor; simpl; try lia; intros.
  - split; [|unfold expect; simpl; lra]. intros a p H'. simpl in H'. repeat (destruct H' as [[= <- <-]|H']; [lra|]). tauto.
  - destruct x; apply ex_pol_dist; lra.
  - apply ex_pol_dist; lra.
  - split; [|unfold expect; simpl; lra]. intros a p H'. simpl in H'. repeat (destruct H' as [[= <- <-]|H']; [lra|]). tauto.
Qed.
Lemma ex_pol_slates c : slates_of (ex_pol c) 2 2.
Proof.
  intros s p H _. simpl in H. repeat (destruct H as [[= <- <-]|H]; [simpl; split; [auto|repeat constructor]|]). tauto.
Qed.
Lemma ex_pol_same c c' s p : In (s, p) (ex_pol c) -> 0 < c' < 1 -> exists q, In (s, q) (ex_pol c') /\ q <> 0.
Proof.
  intros H Hc. simpl in H.
  repeat (destruct H as [[= <- <-]|H]; [eexists; split; [simpl; eauto 6|nra]|]). tauto.
Qed.
Lemma ex_senv_support i kd : slate_support (ex_senv i) kd.
Proof.
  intros x s p k H Hp Hk. change (In (s, p) (ex_pol (2/3))) in H.
  assert (Hc : 0 < (if x then 1/2 else 1/3) < 1) by (destruct x; lra).
  destruct (ex_pol_same _ (if x then 1/2 else 1/3) s p H Hc) as (q & Hq & Hq0).
  apply (propensity_pos kd k (ex_pol (if x then 1/2 else 1/3)) s q); auto. apply ex_pol_dist; auto.
Qed.
Lemma ex_senv_independent : reward_structure (ex_senv 0) Independent.
Proof.
  intros x s t k Hk H. unfold agree in H. destruct (Nat.eq_dec (nth k s 0%nat) (nth k t 0%nat)) as [E|]; [|discriminate].
  simpl in Hk. unfold slate_q, expect; simpl. destruct k as [|[|k]]; try lia; rewrite E; lra.
Qed.
Lemma ex_senv_cascade i : reward_structure (ex_senv i) Cascade.
Proof.
  intros x s t k Hk H.
  assert (E0 : nth 0 s 0%nat = nth 0 t 0%nat).
  { rewrite (nth_firstn_eq 0 s), (nth_firstn_eq 0 t), (agree_firstn k s t 1 H) by lia. reflexivity. }
  assert (E1 : nth k s 0%nat = nth k t 0%nat).
  { rewrite (nth_firstn_eq k s), (nth_firstn_eq k t), (agree_firstn k s t (S k) H) by lia. reflexivity. }
  simpl in Hk. unfold slate_q, expect; simpl. destruct k as [|[|k]]; try lia; rewrite ?E0, ?E1; lra.
Qed.
Lemma ex_pol_cond c : 0 < c < 1 -> conditional_of (ex_pol c) 2 2 (ex_cond c).
Proof.
  intros Hc u k a Hu Hk Ha.
  destruct k as [|[|k]]; [| |lia].
  - destruct u; [|discriminate]. unfold expect; simpl. destruct a as [|[|a]]; [| |lia]; simpl; lra.
  - destruct u as [|b [|]]; try discriminate. unfold expect; simpl.
    destruct a as [|[|a]]; [| |lia]; destruct b as [|[|b]]; simpl; try lra.
Qed.
Example C34_example : senv_ok (ex_senv 1) /\ slate_support (ex_senv 1) Standard /\ slate_policy_value (ex_senv 1) = 149/72.
Proof.
  split; [apply ex_senv_ok|]. split; [apply ex_senv_support|].
  unfold slate_policy_value, slate_q, avg, expect; simpl. lra.
Qed.
Example C35_example : senv_ok (ex_senv 0) /\ slate_support (ex_senv 0) Independent /\ reward_structure (ex_senv 0) Independent.
Proof. split; [apply ex_senv_ok|]. split; [apply ex_senv_support|apply ex_senv_independent]. Qed.
Example C36_example : senv_ok (ex_senv 1) /\ slate_support (ex_senv 1) Cascade /\ reward_structure (ex_senv 1) Cascade.
Proof. split; [apply ex_senv_ok|]. split; [apply ex_senv_support|apply ex_senv_cascade]. Qed.

(** ** C85: cascade-DR is unbiased whatever the reward model *)
Theorem C85_cascade_dr_unbiased : forall (X : Type) (e : senv X) (K : nat) (qh cd : X -> list nat -> nat -> R),
  senv_ok e -> (0 < K)%nat ->
  (forall x, slates_of (se_mu e x) (se_L e) K) -> (forall x, slates_of (se_nu e x) (se_L e) K) ->
  (forall x, conditional_of (se_nu e x) (se_L e) K (cd x)) -> (forall x u, sumn K (cd x u) = 1) ->
  slate_support e Cascade -> reward_structure e Cascade ->
  expects (slate_logs e) (fun o => let l := slate_log e Cascade o in
    cascade_dr_value (se_L e) K (s_ids l) (tabZ (sl_n l) (log_action e o)) (s_rew l) (s_pos l) (s_p l) (s_pe l)
      (flat2 (sl_n l) K (log_table e qh o)) (flat2 (sl_n l) K (log_table e cd o))) (slate_policy_value e).
Proof. intros. apply cdr_unbiased; auto. Qed.
Example C85_example : let e := ex_senv 1 in
  senv_ok e /\ (forall x, slates_of (se_mu e x) (se_L e) 2) /\ (forall x, slates_of (se_nu e x) (se_L e) 2) /\
  (forall x : bool, conditional_of (se_nu e x) (se_L e) 2 (ex_cond (2/3))) /\ (forall u, sumn 2 (ex_cond (2/3) u) = 1) /\
  slate_support e Cascade /\ reward_structure e Cascade.
Proof.
  split; [apply ex_senv_ok|]. split; [intros x; apply ex_pol_slates|]. split; [intros x; apply ex_pol_slates|].
  split; [intros x; apply ex_pol_cond; lra|]. split.
  - intros u. simpl. destruct u as [|[|[|b]] [|]]; simpl; lra.
  - split; [apply ex_senv_support|apply ex_senv_cascade].
Qed.

(** ** C37: cascade-DR *)
Theorem C37_value : forall l n L K act q pi, in_blocks l n L -> rows_ok l -> cascading l ->
  (0 < K)%nat -> (forall j, (j < sl_n l)%nat -> (act j < K)%nat) ->
  (forall j, (j < sl_n l)%nat -> sumn K (pi j) = 1) ->
  cascade_dr_value L K (s_ids l) (tabZ (sl_n l) act) (s_rew l) (s_pos l) (s_p l) (s_pe l)
    (flat2 (sl_n l) K q) (flat2 (sl_n l) K pi) = Ok (Fin (cascade_dr_spec l n L K act q pi)).
Proof. exact cascade_value. Qed.
(** Its interval resamples the totals per slate, in ascending slate order. *)
Theorem C37_interval : forall l n L K act q pi ids alpha B choice, in_blocks l n L -> rows_ok l -> cascading l ->
  (0 < K)%nat -> (forall j, (j < sl_n l)%nat -> (act j < K)%nat) ->
  (forall j, (j < sl_n l)%nat -> sumn K (pi j) = 1) -> slates l ids -> StronglySorted lt ids ->
  cascade_dr_interval L K (s_ids l) (tabZ (sl_n l) act) (s_rew l) (s_pos l) (s_p l) (s_pe l) (flat2 (sl_n l) K q) (flat2 (sl_n l) K pi) alpha B choice
  = estimate_confidence_interval_by_bootstrap
      (map (fun s => Fin (slate_total l (fun j => s_weight l j * (sl_r l j - q j (act j)) + prev_weight l L (j / L) (j mod L) * sumn K (fun a => pi j a * q j a)) s)) ids)
      alpha B choice.
Proof.
  intros l n L K act q pi ids alpha B choice Hb H Hc HK Ha Hp Hs Hsort. unfold cascade_dr_interval. rewrite check_cascade_dr_rows by auto. simpl.
  rewrite (block_slates l n L) by auto. rewrite cascade_rounds by auto. cbn [bind]. rewrite (slate_sums_rows l ids) by auto. reflexivity.
Qed.
Theorem C37_zero_baseline : forall l n L K act pi, in_blocks l n L -> rows_ok l -> cascading l ->
  (0 < K)%nat -> (forall j, (j < sl_n l)%nat -> (act j < K)%nat) ->
  (forall j, (j < sl_n l)%nat -> sumn K (pi j) = 1) ->
  cascade_dr_value L K (s_ids l) (tabZ (sl_n l) act) (s_rew l) (s_pos l) (s_p l) (s_pe l)
    (flat2 (sl_n l) K (fun _ _ => 0)) (flat2 (sl_n l) K pi)
  = rips_value (s_ids l) (s_rew l) (s_pos l) (s_p l) (s_pe l).
Proof.
  intros l n L K act pi Hb H Hc HK Ha Hp. rewrite (cascade_value l n) by auto.
  unfold rips_value, slate_value. rewrite check_rips_rows, ipw_rounds by auto. simpl. unfold per_slate.
  rewrite nsum_tabF, (block_slates l n L Hb). destruct Hb as (Hn & HL & Hl & _). unfold nnat.
  rewrite ndiv_Fin by (apply INR_ne; auto). do 2 f_equal. unfold cascade_dr_spec, avg. f_equal.
  rewrite Hl, sumn_block. apply sumn_ext. intros i _. apply sumn_ext. intros k _.
  rewrite (sumn_ext K _ (fun _ => 0)) by (intros; lra). rewrite sumn_0. lra.
Qed.

(** One slate of two positions; weights 1 and 1/2. *)
Definition ex_two : slog := {| sl_n := 2; sl_id := fun _ => 7%nat; sl_pos := fun i => i;
  sl_r := fun _ => 1; sl_p := fun _ => 1; sl_pe := fun i => match i with O => 1 | _ => 1/2 end |}.
Lemma ex_two_ok : rows_ok ex_two.
Proof. constructor; simpl; intros; try lia; try lra. idx i; lra. Qed.
Lemma ex_two_cascading : cascading ex_two.
Proof. intros i j Hi Hj. simpl in *. idx i; idx j; simpl; intros; split; try lra; try lia. Qed.
Lemma ex_two_blocks : in_blocks ex_two 1 2.
Proof.
  repeat split; simpl; auto; intros.
  - idx i; idx j; simpl; try lia; auto.
Qed.
Definition swap01 (i : nat) : nat := match i with O => 1%nat | S O => O | k => k end.
Lemma swapped_ok : rows_ok (s_reorder swap01 ex_two) /\ cascading (s_reorder swap01 ex_two) /\ in_blocks (s_reorder swap01 ex_two) 1 2.
Proof.
  split; [|split].
  - constructor; simpl; intros; try lia; try lra; [idx i; simpl; lra|]. idx i; idx j; simpl in *; lia.
  - intros i j Hi Hj. simpl in *. idx i; idx j; simpl; intros; split; try lra; try lia.
  - repeat split; simpl; auto; intros. idx i; idx j; simpl; try lia; auto.
Qed.
(** Swapping the two rows of one slate (with their predictions) changes the cascade-DR value, while
    by C33_row_order it cannot change the RIPS value. *)
Theorem C37_order_sensitive : exists l n L K act q pi s v v',
  rows_ok l /\ cascading l /\ in_blocks l n L /\ is_reordering (sl_n l) s /\
  rips_value (s_ids (s_reorder s l)) (s_rew (s_reorder s l)) (s_pos (s_reorder s l)) (s_p (s_reorder s l)) (s_pe (s_reorder s l))
    = rips_value (s_ids l) (s_rew l) (s_pos l) (s_p l) (s_pe l) /\
  cascade_dr_value L K (s_ids l) (tabZ (sl_n l) act) (s_rew l) (s_pos l) (s_p l) (s_pe l)
    (flat2 (sl_n l) K q) (flat2 (sl_n l) K pi) = Ok (Fin v) /\
  (let l' := s_reorder s l in
   cascade_dr_value L K (s_ids l') (tabZ (sl_n l') (fun j => act (s j))) (s_rew l') (s_pos l') (s_p l') (s_pe l')
    (flat2 (sl_n l') K (fun j => q (s j))) (flat2 (sl_n l') K (fun j => pi (s j))) = Ok (Fin v')) /\
  v <> v'.
Proof.
  exists ex_two, 1%nat, 2%nat, 1%nat, (fun _ => 0%nat), (fun j _ => match j with O => 1 | _ => 0 end), (fun _ _ => 1), swap01.
  assert (Hs : is_reordering 2 swap01) by (split; intros; idx i; try idx j; simpl in *; lia).
  destruct swapped_ok as (S1 & S2 & S3).
  eexists. eexists.
  split; [apply ex_two_ok|]. split; [apply ex_two_cascading|]. split; [apply ex_two_blocks|]. split; [exact Hs|].
  split.
  { apply (C33_row_order ex_two [7%nat] swap01 ex_two_ok).
    - split; [constructor; simpl; auto; constructor|]. intros t; simpl. split.
      + intros [<-|[]]. exists 0%nat. split; [lia|auto].
      + intros (i & _ & E). auto.
    - exact Hs.
    - apply ex_two_cascading. }
  split.
  { apply (cascade_value ex_two 1); auto using ex_two_blocks, ex_two_ok, ex_two_cascading; intros; simpl; lra. }
  split.
  { apply (cascade_value (s_reorder swap01 ex_two) 1); auto; intros; simpl; lra. }
  unfold cascade_dr_spec, avg, prev_weight, s_weight; simpl. lra.
Qed.

(** ** C38: self-normalised slate estimators *)
Lemma classic_pos l k : (exists i, (i < sl_n l)%nat /\ sl_pos l i = k) \/ ~ (exists i, (i < sl_n l)%nat /\ sl_pos l i = k).
Proof.
  destruct (in_dec Nat.eq_dec k (tab (sl_n l) (sl_pos l))) as [H|H]; [left|right]; rewrite In_tab in H; auto.
Qed.
Theorem C38_per_position_value : forall l ids len, rows_ok l -> slates l ids ->
  (forall k, (k < len)%nat -> (exists i, (i < sl_n l)%nat /\ sl_pos l i = k) -> 0 < pos_total l k (s_weight l)) ->
  let v := sumn len (fun k => pos_count l k *
             (pos_total l k (fun i => sl_r l i * s_weight l i) / pos_total l k (s_weight l))) / INR (length ids) in
  sniips_value len (s_ids l) (s_rew l) (s_pos l) (s_p l) (s_pe l) = Ok (Fin v) /\
  (cascading l -> snrips_value len (s_ids l) (s_rew l) (s_pos l) (s_p l) (s_pe l) = Ok (Fin v)).
Proof.
  intros l ids len H Hs Hw v.
  assert (Hm : forall i, (i < sl_n l)%nat -> (sl_pos l i < len)%nat -> 0 < pos_mean_weight l (sl_pos l i)).
  { intros i Hi Hl. unfold pos_mean_weight. apply Rdiv_lt_0_compat; [apply Hw; eauto|apply pos_count_pos; eauto]. }
  assert (E : v = slate_mean l ids (fun i => if lt_dec (sl_pos l i) len then sl_r l i * s_weight l i / pos_mean_weight l (sl_pos l i) else 0)).
  { rewrite slate_mean_rows by auto. unfold v. f_equal.
    transitivity (sumn len (fun k => sumn (sl_n l) (fun i => if Nat.eq_dec (sl_pos l i) k then sl_r l i * s_weight l i / pos_mean_weight l (sl_pos l i) else 0))).
    - apply sumn_ext. intros k Hk.
      destruct (classic_pos l k) as [Hex|Hno].
      + pose proof (Hw k Hk Hex) as Hwk. pose proof (pos_count_pos l k Hex) as Hck.
        transitivity (pos_total l k (fun i => sl_r l i * s_weight l i) / pos_mean_weight l k).
        * unfold pos_mean_weight. field. split; lra.
        * unfold pos_total at 1. rewrite <- sumn_div. apply sumn_ext. intros i Hi.
          destruct (Nat.eq_dec (sl_pos l i) k) as [->|]; [reflexivity|]. unfold Rdiv; lra.
      + unfold pos_count. rewrite (sumn_zero (sl_n l) (fun i => if Nat.eq_dec (sl_pos l i) k then 1 else 0)).
        * transitivity 0; [lra|]. symmetry. apply sumn_zero. intros i Hi. destruct (Nat.eq_dec (sl_pos l i) k); [exfalso; apply Hno; eauto|auto].
        * intros i Hi. destruct (Nat.eq_dec (sl_pos l i) k); [exfalso; apply Hno; eauto|auto].
    - rewrite sumn_swap. apply sumn_ext. intros i Hi. destruct (lt_dec (sl_pos l i) len) as [Hl|Hl].
      + rewrite (sumn_term len _ (sl_pos l i)); auto.
        * destruct (Nat.eq_dec _ _); congruence.
        * intros k _ Hne. destruct (Nat.eq_dec _ _); congruence.
      + apply sumn_zero. intros k Hk. destruct (Nat.eq_dec _ _); [lia|auto]. }
  rewrite E. split; [|intros Hc]; apply slate_value_rows; auto using check_iips_rows, check_rips_rows, sn_rounds.
Qed.
(** The factor of position k is a weighted mean of the rewards logged there. *)
Theorem C38_convex : forall l k lo hi, rows_ok l -> 0 < pos_total l k (s_weight l) ->
  (forall i, (i < sl_n l)%nat -> sl_pos l i = k -> lo <= sl_r l i <= hi) ->
  lo <= pos_total l k (fun i => sl_r l i * s_weight l i) / pos_total l k (s_weight l) <= hi.
Proof.
  intros l k lo hi H Hw Hr.
  assert (Hwi : forall i, (i < sl_n l)%nat -> 0 <= s_weight l i).
  { intros i Hi. pose proof (so_p l H i Hi). pose proof (so_pe l H i Hi). unfold s_weight.
    apply Rmult_le_pos; [lra|]. left. apply Rinv_0_lt_compat. lra. }
  assert (H1 : lo * pos_total l k (s_weight l) <= pos_total l k (fun i => sl_r l i * s_weight l i)).
  { unfold pos_total. rewrite <- sumn_scal. apply sumn_le. intros i Hi. destruct (Nat.eq_dec _ _) as [E|]; [|lra].
    specialize (Hr i Hi E). specialize (Hwi i Hi). nra. }
  assert (H2 : pos_total l k (fun i => sl_r l i * s_weight l i) <= hi * pos_total l k (s_weight l)).
  { unfold pos_total. rewrite <- sumn_scal. apply sumn_le. intros i Hi. destruct (Nat.eq_dec _ _) as [E|]; [|lra].
    specialize (Hr i Hi E). specialize (Hwi i Hi). nra. }
  split.
  - apply Rmult_le_reg_r with (pos_total l k (s_weight l)); auto. unfold Rdiv. rewrite Rmult_assoc, Rinv_l by lra. lra.
  - apply Rmult_le_reg_r with (pos_total l k (s_weight l)); auto. unfold Rdiv. rewrite Rmult_assoc, Rinv_l by lra. lra.
Qed.
(** Multiplying the propensities of each position by a constant does not change the value. *)
Theorem C38_rescale : forall l c ids len, let l' :=
    {| sl_n := sl_n l; sl_id := sl_id l; sl_pos := sl_pos l; sl_r := sl_r l;
       sl_p := fun i => c (sl_pos l i) * sl_p l i; sl_pe := sl_pe l |} in
  rows_ok l -> rows_ok l' -> slates l ids -> (forall k, 0 < c k) ->
  (forall k, (k < len)%nat -> (exists i, (i < sl_n l)%nat /\ sl_pos l i = k) -> 0 < pos_total l k (s_weight l)) ->
  sniips_value len (s_ids l') (s_rew l') (s_pos l') (s_p l') (s_pe l')
  = sniips_value len (s_ids l) (s_rew l) (s_pos l) (s_p l) (s_pe l).
Proof.
  intros l c ids len l' H H' Hs Hc Hw.
  assert (Et : forall f k, pos_total l' k (fun i => f i * s_weight l' i) = / c k * pos_total l k (fun i => f i * s_weight l i)).
  { intros f k. unfold pos_total. rewrite <- sumn_scal. apply sumn_ext. intros i Hi. simpl in Hi. cbn [sl_pos l'].
    destruct (Nat.eq_dec _ _) as [E|]; [|lra]. unfold s_weight; simpl. rewrite E.
    pose proof (so_p l H i Hi). specialize (Hc k). field. lra. }
  assert (Ew : forall k, pos_total l' k (s_weight l') = / c k * pos_total l k (s_weight l)).
  { intros k. specialize (Et (fun _ => 1) k). unfold pos_total in *.
    rewrite (sumn_ext (sl_n l') _ (fun i => if Nat.eq_dec (sl_pos l' i) k then 1 * s_weight l' i else 0)) by (intros i _; destruct (Nat.eq_dec _ _); lra).
    rewrite Et. f_equal. apply sumn_ext. intros i _. destruct (Nat.eq_dec _ _); lra. }
  destruct (C38_per_position_value l ids len H Hs Hw) as [-> _].
  destruct (C38_per_position_value l' ids len H' Hs) as [-> _].
  { intros k Hk Hex. rewrite Ew. apply Rmult_lt_0_compat; [apply Rinv_0_lt_compat; auto|]. apply Hw; auto. }
  do 3 f_equal. apply sumn_ext. intros k Hk. change (pos_count l' k) with (pos_count l k).
  change (pos_total l' k (fun i => sl_r l' i * s_weight l' i)) with (pos_total l' k (fun i => sl_r l i * s_weight l' i)).
  rewrite (Et (sl_r l) k), Ew.
  destruct (classic_pos l k) as [Hex|Hno].
  - pose proof (Hw k Hk Hex). specialize (Hc k). f_equal. field. split; lra.
  - assert (Z : pos_count l k = 0).
    { unfold pos_count. apply sumn_zero. intros i Hi. destruct (Nat.eq_dec _ _); [exfalso; apply Hno; eauto|auto]. }
    rewrite Z. lra.
Qed.
(** Rows whose position is outside [0, len_list) are accepted and silently contribute nothing: the
    value does not depend on their rewards. *)
Theorem C38_rows_outside_len_list_ignored : forall l ids len r', rows_ok l -> slates l ids ->
  (forall k, (k < len)%nat -> (exists i, (i < sl_n l)%nat /\ sl_pos l i = k) -> 0 < pos_total l k (s_weight l)) ->
  (forall i, (i < sl_n l)%nat -> (sl_pos l i < len)%nat -> r' i = sl_r l i) ->
  sniips_value len (s_ids l) (tabF (sl_n l) r') (s_pos l) (s_p l) (s_pe l)
  = sniips_value len (s_ids l) (s_rew l) (s_pos l) (s_p l) (s_pe l).
Proof.
  intros l ids len r' H Hs Hw Hr. destruct (C38_per_position_value l ids len H Hs Hw) as [-> _].
  set (l' := {| sl_n := sl_n l; sl_id := sl_id l; sl_pos := sl_pos l; sl_r := r'; sl_p := sl_p l; sl_pe := sl_pe l |}).
  assert (H' : rows_ok l') by (destruct H; constructor; auto).
  destruct (C38_per_position_value l' ids len H' Hs Hw) as [E _].
  etransitivity; [exact E|]. do 3 f_equal. apply sumn_ext. intros k Hk. f_equal.
  change (pos_total l' k (s_weight l')) with (pos_total l k (s_weight l)). f_equal.
  unfold pos_total. apply sumn_ext. intros i Hi. simpl. destruct (Nat.eq_dec _ _) as [E'|]; auto.
  rewrite Hr by (auto; lia). reflexivity.
Qed.
(** The standard version normalises by the mean weight of all rows. *)
Theorem C38_standard_value : forall l ids, rows_ok l -> slates l ids -> constant_in_slate l ->
  0 < sumn (sl_n l) (s_weight l) ->
  snsips_value (s_ids l) (s_rew l) (s_pos l) (s_p l) (s_pe l)
  = Ok (Fin (INR (sl_n l) / INR (length ids) *
       (sumn (sl_n l) (fun i => sl_r l i * s_weight l i) / sumn (sl_n l) (s_weight l)))).
Proof.
  intros l ids H Hs Hc Hw. pose proof (so_n l H) as Hn. pose proof (INR_pos _ Hn). pose proof (INR_pos _ (slates_pos l ids Hs Hn)).
  assert (Ha : 0 < avg (sl_n l) (s_weight l)) by (unfold avg; apply Rdiv_lt_0_compat; auto).
  transitivity (Ok (Fin (slate_mean l ids (fun i => sl_r l i * s_weight l i / avg (sl_n l) (s_weight l))))).
  - apply slate_value_rows; auto using check_sips_rows, snsips_rounds_rows.
  - do 2 f_equal. rewrite slate_mean_rows by auto. rewrite sumn_div. unfold avg. field. repeat split; lra.
Qed.
(** The intervals of the three self-normalised estimators resample the totals per slate of the normalised rewards. *)
Theorem C38_interval : forall l ids len alpha B choice, rows_ok l -> slates l ids -> StronglySorted lt ids ->
  let boot f := estimate_confidence_interval_by_bootstrap (map (fun s => Fin (slate_total l f s)) ids) alpha B choice in
  (constant_in_slate l -> 0 < sumn (sl_n l) (s_weight l) ->
     slate_interval check_sips_inputs snsips_rounds (s_ids l) (s_rew l) (s_pos l) (s_p l) (s_pe l) alpha B choice
     = boot (fun i => sl_r l i * s_weight l i / avg (sl_n l) (s_weight l))) /\
  ((forall k, (k < len)%nat -> (exists i, (i < sl_n l)%nat /\ sl_pos l i = k) -> 0 < pos_total l k (s_weight l)) ->
   let normalised i := if lt_dec (sl_pos l i) len then sl_r l i * s_weight l i / (pos_total l (sl_pos l i) (s_weight l) / pos_count l (sl_pos l i)) else 0 in
   slate_interval check_iips_inputs (sn_position_rounds len) (s_ids l) (s_rew l) (s_pos l) (s_p l) (s_pe l) alpha B choice = boot normalised /\
   (cascading l -> slate_interval check_rips_inputs (sn_position_rounds len) (s_ids l) (s_rew l) (s_pos l) (s_p l) (s_pe l) alpha B choice = boot normalised)).
Proof.
  intros l ids len alpha B choice H Hs Hsort boot. pose proof (INR_pos _ (so_n l H)). split.
  - intros Hc Hw. unfold slate_interval. rewrite check_sips_rows by auto. cbn [bind].
    rewrite snsips_rounds_rows by (auto; unfold avg; apply Rdiv_lt_0_compat; auto). cbn [bind]. rewrite (slate_sums_rows l ids) by auto. reflexivity.
  - intros Hw normalised.
    assert (Hm : forall i, (i < sl_n l)%nat -> (sl_pos l i < len)%nat -> 0 < pos_mean_weight l (sl_pos l i)).
    { intros i Hi Hl. unfold pos_mean_weight. apply Rdiv_lt_0_compat; [apply Hw; eauto|apply pos_count_pos; eauto]. }
    split; [|intros Hc]; unfold slate_interval; rewrite ?check_iips_rows, ?check_rips_rows by auto; cbn [bind]; rewrite sn_rounds by auto; cbn [bind]; rewrite (slate_sums_rows l ids) by auto; reflexivity.
Qed.
Example C38_example : rows_ok ex_slate /\ slates ex_slate [3; 5]%nat /\ constant_in_slate ex_slate /\
  (forall k, (k < 2)%nat -> 0 < pos_total ex_slate k (s_weight ex_slate)) /\
  0 < sumn (sl_n ex_slate) (s_weight ex_slate) /\
  sniips_value 2 (s_ids ex_slate) (s_rew ex_slate) (s_pos ex_slate) (s_p ex_slate) (s_pe ex_slate) = Ok (Fin (17/3)) /\
  sniips_value 1 (s_ids ex_slate) (s_rew ex_slate) (s_pos ex_slate) (s_p ex_slate) (s_pe ex_slate) = Ok (Fin (10/3)).
Proof.
  assert (Hw : forall k, (k < 2)%nat -> 0 < pos_total ex_slate k (s_weight ex_slate)).
  { intros k Hk. destruct k as [|[|k]]; [| |lia]; unfold pos_total, s_weight; simpl; lra. }
  split; [apply ex_slate_rows|]. split; [apply ex_slate_slates|]. split; [apply ex_slate_constant|]. split; [exact Hw|].
  split; [unfold s_weight; simpl; lra|].
  split.
  - destruct (C38_per_position_value ex_slate [3;5]%nat 2 ex_slate_rows ex_slate_slates) as [-> _]; [intros; apply Hw; auto|].
    do 2 f_equal. unfold pos_count, pos_total, s_weight; simpl. field.
  - destruct (C38_per_position_value ex_slate [3;5]%nat 1 ex_slate_rows ex_slate_slates) as [-> _]; [intros; apply Hw; lia|].
    do 2 f_equal. unfold pos_count, pos_total, s_weight; simpl. field.
Qed.

(** ** C39: the input checks accept exactly the valid inputs *)
Theorem C39_iips_check : forall ids rew pos p pe,
  decides (check_iips_inputs ids rew pos p pe) (inputs_valid ids rew pos p pe /\ no_repeat ids pos).
Proof. exact check_iips_decides. Qed.
Theorem C39_sips_check : forall ids rew pos p pe,
  decides (check_sips_inputs ids rew pos p pe)
    (inputs_valid ids rew pos p pe /\ no_repeat ids pos /\ one_value_per_slate ids p /\ one_value_per_slate ids pe).
Proof. exact check_sips_decides. Qed.
Theorem C39_rips_check : forall ids rew pos p pe,
  decides (check_rips_inputs ids rew pos p pe)
    (inputs_valid ids rew pos p pe /\ no_repeat ids pos /\ never_increases ids pos p /\ never_increases ids pos pe).
Proof. exact check_rips_decides. Qed.
Theorem C39_cascade_dr_check : forall K ids act rew pos p pe q_hat edist, (0 < K)%nat ->
  decides (check_cascade_dr_inputs K ids act rew pos p pe q_hat edist)
    ((inputs_valid ids rew pos p pe /\ no_repeat ids pos /\
      never_increases ids pos p /\ never_increases ids pos pe) /\ cascade_inputs K ids act q_hat edist).
Proof. exact check_cascade_decides. Qed.
(** NaN propensities pass every comparison and reach the estimate. *)
Theorem C39_nan_pscore_accepted :
  iips_value [0; 0]%Z [Fin 1; Fin 1] [0; 1]%Z [NaN; Fin (1/2)] [Fin (1/2); Fin (1/2)] = Ok NaN.
Proof.
  unfold iips_value, slate_value.
  rewrite (decides_Ok _ _ (check_iips_decides _ _ _ _ _)); [reflexivity|]. split.
  - constructor; simpl; auto; repeat (apply Forall_cons || apply Forall_nil); try lia;
      try (left; reflexivity); right; exists (1/2); split; try reflexivity; lra.
  - intros i j Hi Hj. simpl in *. destruct i as [|[|i]], j as [|[|j]]; simpl; try lia.
Qed.
Example C39_example :
  decides (check_rips_inputs (s_ids ex_slate) (s_rew ex_slate) (s_pos ex_slate) (s_p ex_slate) (s_pe ex_slate)) True /\
  decides (check_iips_inputs [1]%Z [Fin 0] [-1]%Z [Fin 1] [Fin 1]) False.
Proof.
  split.
  - left. split; auto. apply check_rips_rows; [apply ex_slate_rows|apply ex_slate_cascading].
  - right. split; auto.
Qed.

Print Assumptions C33_value.
Print Assumptions C33_rows.
Print Assumptions C33_interval.
Print Assumptions C33_row_order.
Print Assumptions C34_standard_unbiased.
Print Assumptions C35_independent_unbiased.
Print Assumptions C36_cascade_unbiased.
Print Assumptions C37_value.
Print Assumptions C37_interval.
Print Assumptions C37_zero_baseline.
Print Assumptions C37_order_sensitive.
Print Assumptions C38_per_position_value.
Print Assumptions C38_convex.
Print Assumptions C38_rescale.
Print Assumptions C38_rows_outside_len_list_ignored.
Print Assumptions C38_standard_value.
Print Assumptions C38_interval.
Print Assumptions C39_iips_check.
Print Assumptions C39_sips_check.
Print Assumptions C39_rips_check.
Print Assumptions C39_cascade_dr_check.
Print Assumptions C39_nan_pscore_accepted.
Print Assumptions C85_cascade_dr_unbiased.
