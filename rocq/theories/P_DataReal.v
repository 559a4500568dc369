(** * P_DataReal: the Open Bandit data (C67). *)

From Coq Require Import String Reals List ZArith Lia Lra Bool Permutation Sorted.
From Verif Require Import Num NpList M_Utils M_Estimators M_Data S_Base S_Estimators S_Data
  L_Num L_Base L_Utils L_Slate L_EstProps L_Examples L_Data P_Utils P_DataMC.
Import ListNotations.
Open Scope R_scope.

(** pandas' sort by time: the same rows, with times that do not decrease. *)
Definition sorts_by_time (sort : list obd_row -> list obd_row) : Prop := forall raw,
  Permutation (sort raw) raw /\ StronglySorted (fun x y => r_time x <= r_time y) (sort raw).

(** The feedback made of some rows of a file whose positions are [pos]: the position of a row is the number of smaller
    positions that occur in the file. *)
Definition feedback_of (pos : list Z) (K : Z) (rows : list obd_row) : obd_feedback := {|
  fb_n := Z.of_nat (length rows); fb_actions := K;
  fb_data := {| od_action := map r_item rows; od_position := map (fun r => rank_in pos (r_pos r)) rows;
                od_reward := map r_click rows; od_pscore := map r_ps rows; od_context := map r_ctx rows |} |}.
(** One more than the largest action of the file. *)
Definition one_above (items : list Z) (K : Z) : Prop := In (K - 1)%Z items /\ forall a, In a items -> (a < K)%Z.

Lemma distinct_perm l l' : Permutation l l' -> Permutation (distinct l) (distinct l').
Proof.
  intros H. apply NoDup_Permutation; try apply distinct_NoDup. intros x. rewrite !distinct_In.
  split; intros Hx; [|apply Permutation_sym in H]; eapply Permutation_in; eauto.
Qed.
Lemma rank_in_perm l l' v : Permutation l l' -> rank_in l v = rank_in l' v.
Proof. intros H. unfold rank_in. apply filter_perm_length. apply distinct_perm. auto. Qed.

Lemma one_above_perm l l' K : Permutation l l' -> one_above l K -> one_above l' K.
Proof.
  intros H (H1 & H2). split; [eapply Permutation_in; eauto|]. intros a Ha. apply H2. apply Permutation_sym in H. eapply Permutation_in; eauto.
Qed.
Lemma actions_above d : od_action d <> [] -> exists K, obd_actions d = Ok K /\ one_above (od_action d) K.
Proof.
  intros H. unfold obd_actions. pose proof (zmaxl_spec (od_action d)) as S. destruct (zmaxl (od_action d)) as [m|e].
  - destruct S as (_ & S1 & S2). exists (m + 1)%Z. split; [reflexivity|]. split; [replace (m + 1 - 1)%Z with m by lia; auto|]. intros a Ha. specialize (S2 a Ha). lia.
  - destruct S as (S1 & _). contradiction.
Qed.
Lemma one_above_unique l K K' : one_above l K -> one_above l K' -> K = K'.
Proof. intros (A & B) (A' & B'). specialize (B _ A'). specialize (B' _ A). lia. Qed.

(** Loading and returning the whole log: the rows of the file in the order of time. *)
Theorem C67_full : forall sort raw, sorts_by_time sort -> raw <> [] ->
  exists rows K, Permutation rows raw /\ StronglySorted (fun x y => r_time x <= r_time y) rows /\ one_above (map r_item raw) K /\
    obd_full (obd_load sort raw) = Ok (feedback_of (map r_pos raw) K rows).
Proof.
  intros sort raw Hs Hr. destruct (Hs raw) as (P & SS). exists (sort raw).
  destruct (actions_above (obd_load sort raw)) as (K & E & O).
  { cbn. intros X. apply map_eq_nil in X. rewrite X in P. apply Permutation_nil in P. contradiction. }
  exists K. split; auto. split; auto. cbn [obd_load od_action] in O. split; [eapply one_above_perm; [apply Permutation_map, P|exact O]|].
  unfold obd_full. rewrite E. cbn [bind]. unfold feedback_of, obd_load. cbn [od_action]. rewrite map_length. f_equal. f_equal. f_equal.
  rewrite dense_rank_map, map_map. apply map_ext. intros r. apply rank_in_perm. apply Permutation_map. auto.
Qed.

(** The time-series split: the first floor(n (1 - t)) rows in the order of time, and the others; positions and the number of
    actions are those of the whole file. *)
Theorem C67_split : forall sort raw t, sorts_by_time sort -> raw <> [] -> 0 <= t <= 1 ->
  exists rows K tr, Permutation rows raw /\ StronglySorted (fun x y => r_time x <= r_time y) rows /\ one_above (map r_item raw) K /\
    INR tr <= INR (length raw) * (1 - t) < INR tr + 1 /\ (tr <= length raw)%nat /\
    obd_split (obd_load sort raw) (Fin t) =
      Ok (feedback_of (map r_pos raw) K (firstn tr rows), feedback_of (map r_pos raw) K (skipn tr rows)).
Proof.
  intros sort raw t Hs Hr Ht. destruct (C67_full sort raw Hs Hr) as (rows & K & P & SS & O & E).
  assert (En : length rows = length raw) by (apply Permutation_length; auto).
  assert (N0 := pos_INR (length raw)).
  set (x := INR (length raw) * (1 - t)).
  assert (X0 : 0 <= x) by (unfold x; nra).
  assert (X1 : x <= INR (length raw)) by (unfold x; nra).
  pose proof (base_Int_part x) as (B1 & B2).
  assert (Z0 : (0 <= Int_part x)%Z). { assert (IZR (-1) < IZR (Int_part x)) as L by lra. apply lt_IZR in L. lia. }
  set (tr := Z.to_nat (Int_part x)).
  assert (Et : INR tr = IZR (Int_part x)) by (unfold tr; rewrite INR_IZR_INZ, Z2Nat.id by auto; reflexivity).
  assert (Htr : (tr <= length raw)%nat) by (apply INR_le; lra).
  exists rows, K, tr. split; auto. split; auto. split; auto. split; [lra|]. split; auto.
  unfold obd_full in E. destruct (obd_actions (obd_load sort raw)) as [K'|] eqn:EK; [|discriminate]. cbn [bind] in E.
  assert (E2 : K' = K) by (injection E; auto). subst K'.
  assert (E3 : obd_load sort raw = fb_data (feedback_of (map r_pos raw) K rows)).
  { change (obd_load sort raw) with (fb_data (mkFb (Z.of_nat (length (od_action (obd_load sort raw)))) K (obd_load sort raw))). f_equal. congruence. }
  unfold obd_split, check_scalar. cbn [nlt]. rewrite (proj2 (Rltb_false t 0)) by lra. rewrite (proj2 (Rltb_false 1 t)) by lra. cbn [raise_if bind].
  rewrite EK. cbn [bind].
  assert (EL : length (od_action (obd_load sort raw)) = length raw).
  { cbn [obd_load od_action]. rewrite map_length. apply Permutation_length. apply Hs. }
  rewrite EL. fold x. fold tr. rewrite E3. unfold feedback_of, obd_map. cbn [fb_data]. cbn [od_action od_position od_reward od_pscore od_context].
  rewrite !firstn_map, !skipn_map, firstn_length, skipn_length. rewrite En. f_equal. f_equal; f_equal; lia.
Qed.

(** So train rows followed by test rows are the full log. *)
Theorem C67_partition : forall d t tr te full, obd_split d t = Ok (tr, te) -> obd_full d = Ok full ->
  (fb_n tr + fb_n te)%Z = fb_n full /\ fb_actions tr = fb_actions full /\ fb_actions te = fb_actions full /\
  od_action (fb_data tr) ++ od_action (fb_data te) = od_action (fb_data full) /\
  od_position (fb_data tr) ++ od_position (fb_data te) = od_position (fb_data full) /\
  od_reward (fb_data tr) ++ od_reward (fb_data te) = od_reward (fb_data full) /\
  od_pscore (fb_data tr) ++ od_pscore (fb_data te) = od_pscore (fb_data full) /\
  od_context (fb_data tr) ++ od_context (fb_data te) = od_context (fb_data full).
Proof.
  intros d t tr te full. unfold obd_split, obd_full. destruct (check_scalar t (Some (Fin 0)) (Some (Fin 1))); [|discriminate]. cbn [bind].
  destruct t as [t| | |]; try discriminate. destruct (obd_actions d) as [K|]; [|discriminate]. cbn [bind].
  intros [= <- <-] [= <-]. cbn. repeat split; try apply firstn_skipn. lia.
Qed.

(** No training row is later than a test row. *)
Theorem C67_time_order : forall rows k x y, StronglySorted (fun x y => r_time x <= r_time y) rows ->
  In x (firstn k rows) -> In y (skipn k rows) -> r_time x <= r_time y.
Proof.
  intros rows. induction rows as [|r rows IH]; intros k x y SS Hx Hy; destruct k; cbn in *; try contradiction.
  inversion SS as [|? ? SS' F]; subst. destruct Hx as [<-|Hx]; [|eapply IH; eauto].
  rewrite List.Forall_forall in F. apply F. rewrite <- (firstn_skipn k rows). apply in_or_app. auto.
Qed.

(** Every logged action of either part is below the reported number of actions, and positions run from 0 without gaps below
    the number of distinct positions of the file, in the order of the file's positions. *)
Theorem C67_ranges : forall pos K items rows, one_above items K -> (forall r, In r rows -> In (r_item r) items /\ In (r_pos r) pos) ->
  (forall a, In a (od_action (fb_data (feedback_of pos K rows))) -> (a < K)%Z) /\
  (forall p, In p (od_position (fb_data (feedback_of pos K rows))) -> (p < length (distinct pos))%nat) /\
  (forall r r', In r rows -> In r' rows -> (r_pos r < r_pos r')%Z -> (rank_in pos (r_pos r) < rank_in pos (r_pos r'))%nat).
Proof.
  intros pos K items rows (_ & O) H. cbn. split; [|split].
  - intros a Ha. apply in_map_iff in Ha as (r & <- & Hr). apply O. apply H. auto.
  - intros p Hp. apply in_map_iff in Hp as (r & <- & Hr). apply rank_bound. apply H. auto.
  - intros r r' Hr Hr' Hlt. apply rank_lt; auto. apply H. auto.
Qed.

(** Refused: test sizes outside [0,1], and files without rows. *)
Theorem C67_rejects : forall sort raw t, sorts_by_time sort ->
  (t < 0 \/ 1 < t -> obd_split (obd_load sort raw) (Fin t) = Err ValueError) /\
  (raw = [] -> obd_split (obd_load sort raw) (Fin t) = Err ValueError /\ obd_full (obd_load sort raw) = Err ValueError).
Proof.
  intros sort raw t Hs. split.
  - intros H. unfold obd_split, check_scalar. cbn [nlt]. unfold Rltb. destruct (Rlt_dec t 0), (Rlt_dec 1 t); cbn; try reflexivity. lra.
  - intros ->. destruct (Hs []) as (P & _). apply Permutation_sym, Permutation_nil in P.
    assert (E : obd_actions (obd_load sort []) = Err ValueError) by (unfold obd_actions, obd_load; cbn [od_action]; rewrite P; reflexivity).
    unfold obd_split, obd_full. rewrite E. split; [|reflexivity]. unfold check_scalar. cbn [nlt]. unfold Rltb. destruct (Rlt_dec t 0), (Rlt_dec 1 t); reflexivity.
Qed.

(** The ends: test size 1 leaves nothing to train on, test size 0 nothing to test on, and then the on-policy estimate is NaN. *)
Theorem C67_on_policy : forall d t test, obd_split d (Fin t) = Ok test ->
  obd_on_policy d (Fin t) true =
    Ok (match length (od_reward (fb_data (snd test))) with
        | O => NaN
        | m => Fin (sumn m (fun i => nth i (od_reward (fb_data (snd test))) 0) / INR m)
        end).
Proof.
  intros d t (tr, te) H. unfold obd_on_policy. rewrite H. cbn [bind fst snd].
  set (l := od_reward (fb_data te)). assert (E : map Fin l = tabF (length l) (fun i => nth i l 0)).
  { unfold tabF. clear. unfold tab. induction l as [|x l IH]; [reflexivity|].
    cbn [length seq map nth]. rewrite <- seq_shift, map_map. cbn [nth]. rewrite IH. reflexivity. }
  f_equal. rewrite E. destruct (length l) as [|m] eqn:EL.
  - unfold nmean, nnat. cbn. rewrite (proj2 (Reqb_true 0 0) eq_refl). unfold inf_sign. rewrite !(proj2 (Rltb_false 0 0)) by lra. reflexivity.
  - rewrite nmean_tabF by lia. reflexivity.
Qed.
Theorem C67_edges : forall sort raw, sorts_by_time sort -> raw <> [] ->
  (exists tr te, obd_split (obd_load sort raw) (Fin 0) = Ok (tr, te) /\ obd_full (obd_load sort raw) = Ok tr /\ fb_n te = 0%Z /\
     obd_on_policy (obd_load sort raw) (Fin 0) true = Ok NaN) /\
  (exists tr te, obd_split (obd_load sort raw) (Fin 1) = Ok (tr, te) /\ obd_full (obd_load sort raw) = Ok te /\ fb_n tr = 0%Z).
Proof.
  intros sort raw Hs Hr. destruct (C67_full sort raw Hs Hr) as (rows' & K' & P' & _ & O' & EF).
  assert (FA : forall f g, obd_full (obd_load sort raw) = Ok f -> fb_actions g = fb_actions f -> fb_n g = fb_n f -> fb_data g = fb_data f -> obd_full (obd_load sort raw) = Ok g).
  { intros [a b c] [a' b' c'] E; cbn; intros -> -> ->. auto. }
  split.
  - destruct (C67_split sort raw 0 Hs Hr ltac:(lra)) as (rows & K & k & P & _ & O & Hk & Hkn & E).
    assert (k = length raw) as ->. { assert (INR (length raw) < INR (S k)) by (rewrite S_INR; lra). apply INR_lt in H. lia. }
    assert (En : length rows = length raw) by (apply Permutation_length; auto).
    rewrite <- En in E. rewrite firstn_all, skipn_all in E. do 2 eexists. split; [exact E|].
    pose proof (C67_partition _ _ _ _ _ E EF) as (C0 & C1 & _ & C2 & C3 & C4 & C5 & C6). cbn [feedback_of fb_data od_action od_position od_reward od_pscore od_context map] in *.
    rewrite !app_nil_r in *. split; [|split; [reflexivity|]].
    + apply (FA _ _ EF); [exact C1|cbn in C0 |- *; lia|cbn; f_equal; auto].
    + rewrite (C67_on_policy _ _ _ E). reflexivity.
  - destruct (C67_split sort raw 1 Hs Hr ltac:(lra)) as (rows & K & k & P & _ & O & Hk & Hkn & E).
    assert (k = 0%nat) as ->. { assert (INR k < INR 1) by (cbn; nra). apply INR_lt in H. lia. }
    cbn [firstn skipn] in E. do 2 eexists. split; [exact E|].
    pose proof (C67_partition _ _ _ _ _ E EF) as (C0 & _ & C1 & C2 & C3 & C4 & C5 & C6). cbn [feedback_of fb_data od_action od_position od_reward od_pscore od_context map app] in *.
    split; [|reflexivity]. apply (FA _ _ EF); [exact C1|cbn in C0 |- *; lia|cbn; f_equal; auto].
Qed.

(** A round of a feedback. *)
Definition round_of (d : obd) (i : nat) : Z * nat * R * R * list R :=
  (nth i (od_action d) 0%Z, nth i (od_position d) 0%nat, nth i (od_reward d) 0, nth i (od_pscore d) 0, nth i (od_context d) []).
Definition same_lengths (d : obd) (n : nat) : Prop :=
  length (od_action d) = n /\ length (od_position d) = n /\ length (od_reward d) = n /\ length (od_pscore d) = n /\ length (od_context d) = n.

Lemma take_nth {A} (l : list A) (d : A) m (draw : nat -> nat) : (forall j, (j < m)%nat -> (draw j < length l)%nat) ->
  mapM (np_get l) (map (fun j => Z.of_nat (draw j)) (seq 0 m)) = Ok (tab m (fun j => nth (draw j) l d)).
Proof.
  intros H. change (map (fun j => Z.of_nat (draw j)) (seq 0 m)) with (tab m (fun j => Z.of_nat (draw j))).
  apply mapM_tab. intros j Hj. specialize (H j Hj). unfold np_get.
  replace (Z.ltb (Z.of_nat (draw j)) 0) with false by (symmetry; apply Z.ltb_ge; lia).
  replace (Z.leb 0 (Z.of_nat (draw j))) with true by (symmetry; apply Z.leb_le; lia).
  replace (Z.ltb (Z.of_nat (draw j)) (Z.of_nat (length l))) with true by (symmetry; apply Z.ltb_lt; lia).
  cbn [andb]. rewrite Nat2Z.id. rewrite (nth_error_nth' l d) by auto. reflexivity.
Qed.

(** Bootstrap: round j of the sample is, in every column, the round of the source with the drawn index. *)
Theorem C67_bootstrap : forall d size t (split : bool) src draw m,
  (if split then exists te, obd_split d t = Ok (src, te) else obd_full d = Ok src) ->
  same_lengths (fb_data src) (Z.to_nat (fb_n src)) -> (0 <= fb_n src)%Z ->
  m = match size with None => fb_n src | Some z => z end -> (0 <= m <= fb_n src)%Z ->
  (forall j, (Z.of_nat j < m)%Z -> (draw j < Z.to_nat (fb_n src))%nat) ->
  exists fb, obd_bootstrap d size t split (fun j => Z.of_nat (draw j)) = Ok fb /\ fb_n fb = m /\ fb_actions fb = fb_actions src /\
    same_lengths (fb_data fb) (Z.to_nat m) /\
    forall j, (Z.of_nat j < m)%Z -> round_of (fb_data fb) j = round_of (fb_data src) (draw j).
Proof.
  intros d size t split src draw m Hsrc (L1 & L2 & L3 & L4 & L5) Hn Em Hm Hd.
  assert (Run : obd_bootstrap d size t split (fun j => Z.of_nat (draw j)) =
    Ok (mkFb m (fb_actions src) (mkObd (tab (Z.to_nat m) (fun j => nth (draw j) (od_action (fb_data src)) 0%Z)) (tab (Z.to_nat m) (fun j => nth (draw j) (od_position (fb_data src)) 0%nat))
      (tab (Z.to_nat m) (fun j => nth (draw j) (od_reward (fb_data src)) 0)) (tab (Z.to_nat m) (fun j => nth (draw j) (od_pscore (fb_data src)) 0)) (tab (Z.to_nat m) (fun j => nth (draw j) (od_context (fb_data src)) []))))).
  { unfold obd_bootstrap.
    replace (if split then tt2 <- obd_split d t ;; Ok (fst tt2) else obd_full d) with (Ok src)
      by (destruct split; [destruct Hsrc as (te & ->); reflexivity|symmetry; auto]).
    cbn [bind].
    replace (match size with None => Ok (fb_n src) | Some z => check_scalar_Z z (Some 0%Z) (Some (fb_n src)) ;;; Ok z end) with (Ok m : res Z).
    2:{ destruct size as [z|]; subst m; [|reflexivity]. unfold check_scalar_Z. destruct (Z.ltb_spec z 0); [lia|]. destruct (Z.ltb_spec (fb_n src) z); [lia|]. reflexivity. }
    cbn [bind].
    replace (Z.eqb (fb_n src) 0 && negb (Z.eqb m 0))%bool with false.
    2:{ symmetry. destruct (Z.eqb_spec (fb_n src) 0), (Z.eqb_spec m 0); cbn; auto; lia. }
    cbn [raise_if bind]. cbv zeta.
    rewrite (take_nth _ 0%Z) by (intros j Hj; rewrite L1; apply Hd; lia). cbn [bind].
    rewrite (take_nth _ 0%nat) by (intros j Hj; rewrite L2; apply Hd; lia). cbn [bind].
    rewrite (take_nth _ 0) by (intros j Hj; rewrite L3; apply Hd; lia). cbn [bind].
    rewrite (take_nth _ 0) by (intros j Hj; rewrite L4; apply Hd; lia). cbn [bind].
    rewrite (take_nth _ []) by (intros j Hj; rewrite L5; apply Hd; lia). reflexivity. }
  eexists. split; [exact Run|]. cbn. split; auto. split; auto. split; [repeat split; cbn; apply tab_length|].
  intros j Hj. unfold round_of. cbn. rewrite !nth_tab by lia. reflexivity.
Qed.

(** A sample larger than the source, or of negative size, is refused. *)
Theorem C67_bootstrap_rejects : forall d z t (split : bool) src draw,
  (if split then exists te, obd_split d t = Ok (src, te) else obd_full d = Ok src) -> (z < 0 \/ fb_n src < z)%Z ->
  obd_bootstrap d (Some z) t split draw = Err ValueError.
Proof.
  intros d z t split src draw Hsrc Hz. unfold obd_bootstrap.
  replace (if split then tt2 <- obd_split d t ;; Ok (fst tt2) else obd_full d) with (Ok src)
    by (destruct split; [destruct Hsrc as (te & ->); reflexivity|symmetry; auto]).
  cbn [bind]. unfold check_scalar_Z. destruct (Z.ltb_spec z 0); [reflexivity|]. destruct (Z.ltb_spec (fb_n src) z); [reflexivity|lia].
Qed.

(** What the split returns has columns of the same lengths, as C67_bootstrap wants. *)
Theorem C67_lengths : forall pos K rows, same_lengths (fb_data (feedback_of pos K rows)) (Z.to_nat (fb_n (feedback_of pos K rows))).
Proof. intros. unfold same_lengths. cbn. rewrite !map_length, Nat2Z.id. auto. Qed.

(** The number of positions. *)
Theorem C67_len_list : forall sort raw, sorts_by_time sort -> raw <> [] ->
  obd_len_list (obd_load sort raw) = Ok (Z.of_nat (length (distinct (map r_pos raw)))).
Proof.
  intros sort raw Hs Hr. destruct (Hs raw) as (P & _). unfold obd_len_list, obd_load. cbn [od_position]. rewrite dense_rank_map.
  assert (Pp : Permutation (map r_pos (sort raw)) (map r_pos raw)) by (apply Permutation_map; auto).
  rewrite <- (Permutation_length (distinct_perm _ _ Pp)). set (l := map r_pos (sort raw)).
  assert (Hl : l <> []). { unfold l. intros X. apply map_eq_nil in X. rewrite X in P. apply Permutation_nil in P. contradiction. }
  pose proof (zmaxl_spec (map Z.of_nat (map (rank_in l) l))) as Z1. destruct (zmaxl _) as [m|e].
  2:{ destruct Z1 as (Z1 & _). apply map_eq_nil, map_eq_nil in Z1. contradiction. }
  destruct Z1 as (_ & Zin & Zmax). cbn [bind]. f_equal.
  apply in_map_iff in Zin as (p & <- & Hp). apply in_map_iff in Hp as (v & <- & Hv). pose proof (rank_bound l v Hv) as B.
  (* the largest position has every other distinct position below it *)
  pose proof (zmaxl_spec l) as Y. destruct (zmaxl l) as [mx|e]; [|destruct Y as (Y & _); contradiction]. destruct Y as (_ & Yin & Ymax).
  assert (R : (length (distinct l) <= S (rank_in l mx))%nat).
  { unfold rank_in. pose proof (distinct_NoDup l) as ND.
    assert (Q : forall k, NoDup k -> (forall x, In x k -> (x <= mx)%Z) -> (length k <= S (length (filter (fun w => Z.ltb w mx) k)))%nat).
    { clear. induction k as [|x k IH]; intros ND H; [cbn; lia|]. inversion ND as [|? ? Nx ND']; subst. cbn [length filter].
      destruct (Z.ltb_spec x mx).
      - cbn [length]. specialize (IH ND' (fun y Hy => H y (or_intror Hy))). lia.
      - assert (x = mx) as -> by (specialize (H x (or_introl eq_refl)); lia).
        assert (E : forall k, ~ In mx k -> (forall x, In x k -> (x <= mx)%Z) -> filter (fun w => Z.ltb w mx) k = k).
        { clear. induction k as [|y k IH]; intros Ni H; [reflexivity|]. cbn. assert (y <> mx) by (intros ->; apply Ni; left; auto).
          specialize (H y (or_introl eq_refl)) as Hy. destruct (Z.ltb_spec y mx); [|lia]. rewrite IH; auto. intros X. apply Ni. right; auto. intros z Hz. apply H. right. auto. }
        rewrite E; auto. intros z Hz. apply H. right; auto. }
    apply Q; auto. intros x Hx. apply Ymax. apply distinct_In. auto. }
  assert (M : (Z.of_nat (rank_in l mx) <= Z.of_nat (rank_in l v))%Z) by (apply Zmax; apply in_map; apply in_map; auto).
  lia.
Qed.

(** ** Concrete cases *)
Fixpoint tinsert (x : obd_row) (l : list obd_row) : list obd_row :=
  match l with [] => [x] | y :: r => if Rleb (r_time x) (r_time y) then x :: l else y :: tinsert x r end.
Definition tsort (l : list obd_row) : list obd_row := fold_right tinsert [] l.
Lemma tinsert_perm x l : Permutation (tinsert x l) (x :: l).
Proof. induction l as [|y l IH]; cbn; auto. destruct (Rleb (r_time x) (r_time y)); auto. rewrite IH. apply perm_swap. Qed.
Lemma tinsert_sorted x l : StronglySorted (fun x y => r_time x <= r_time y) l -> StronglySorted (fun x y => r_time x <= r_time y) (tinsert x l).
Proof.
  induction l as [|y l IH]; cbn; intros SS; [repeat constructor|]. inversion SS as [|? ? S1 F]; subst. rewrite List.Forall_forall in F.
  destruct (Rleb (r_time x) (r_time y)) eqn:E.
  - apply Rleb_true in E. constructor; auto. apply List.Forall_forall. intros z [<-|Hz]; auto. specialize (F z Hz). lra.
  - apply Rleb_false in E. constructor; [apply IH; auto|]. apply List.Forall_forall. intros z Hz. apply (Permutation_in z (tinsert_perm x l)) in Hz.
    destruct Hz as [<-|Hz]; [lra|auto].
Qed.
Lemma tsort_ok : sorts_by_time tsort.
Proof.
  intros raw. split.
  - induction raw; cbn; auto. rewrite tinsert_perm. auto.
  - induction raw; cbn; [constructor|]. apply tinsert_sorted. auto.
Qed.
Definition ex_raw : list obd_row :=
  [mkRow 3 4 1 1 (1/2) [0]; mkRow 1 2 3 0 (1/4) [1]; mkRow 2 0 1 1 (1/5) [0]; mkRow 5 1 3 0 (1/3) [1]].
Example C67_example : sorts_by_time tsort /\ ex_raw <> [] /\ one_above (map r_item ex_raw) 5 /\
  exists tr te, obd_split (obd_load tsort ex_raw) (Fin (1/4)) = Ok (tr, te) /\
    fb_n tr = 3%Z /\ od_action (fb_data tr) = [2; 0; 4]%Z /\ od_position (fb_data tr) = [1; 0; 0]%nat /\ od_action (fb_data te) = [1]%Z.
Proof.
  split; [apply tsort_ok|]. split; [discriminate|]. split.
  { split; [left; reflexivity|]. intros a [<-|[<-|[<-|[<-|[]]]]]; cbn; lia. }
  assert (E : tsort ex_raw = [mkRow 1 2 3 0 (1/4) [1]; mkRow 2 0 1 1 (1/5) [0]; mkRow 3 4 1 1 (1/2) [0]; mkRow 5 1 3 0 (1/3) [1]]).
  { unfold tsort, ex_raw. cbn. repeat (match goal with |- context [Rleb ?a ?b] => unfold Rleb at 1; destruct (Rle_dec a b); try lra end; cbn). reflexivity. }
  unfold obd_load. rewrite E. unfold obd_split, check_scalar. cbn [nlt]. rewrite (proj2 (Rltb_false (1/4) 0)) by lra. rewrite (proj2 (Rltb_false 1 (1/4))) by lra. cbn [raise_if bind map od_action length].
  replace (INR 4 * (1 - 1 / 4)) with (IZR 3) by (rewrite INR_IZR_INZ; cbn; lra).
  replace (Int_part (IZR 3)) with 3%Z.
  2:{ symmetry. unfold Int_part. replace (up (IZR 3)) with 4%Z; [reflexivity|]. apply tech_up; lra. }
  do 2 eexists. split; [reflexivity|]. vm_compute. auto.
Qed.

Print Assumptions C67_full.
Print Assumptions C67_split.
Print Assumptions C67_partition.
Print Assumptions C67_time_order.
Print Assumptions C67_ranges.
Print Assumptions C67_rejects.
Print Assumptions C67_on_policy.
Print Assumptions C67_edges.
Print Assumptions C67_bootstrap.
Print Assumptions C67_bootstrap_rejects.
Print Assumptions C67_lengths.
Print Assumptions C67_len_list.
