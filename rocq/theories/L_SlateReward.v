(** * L_SlateReward: lemmas about the rewards of the slate generator. *)

From Coq Require Import Reals List ZArith Bool Lia Lra Sorted Permutation.
From Verif Require Import Num NpList M_Utils M_Data M_SlateData S_Base S_Data S_SlateReg S_SlateData L_Num L_Base L_Utils L_Data L_SlateEst L_SlateData P_Utils P_SlateData.
Import ListNotations.
Open Scope R_scope.

Lemma int8_stored {A} K (f : nat -> A) a : (a < K)%nat -> np_get (tab K f) (int8 (Z.of_nat a)) = Ok (f (stored K a)).
Proof.
  intros H. assert (Hm : Z.of_nat (a mod 256) = (Z.of_nat a mod 256)%Z) by (rewrite Nat2Z.inj_mod; reflexivity).
  assert (Hle : (a mod 256 <= a)%nat) by (apply Nat.mod_le; lia). assert (Hlt : (a mod 256 < 256)%nat) by (apply Nat.mod_upper_bound; lia).
  assert (E8 : int8 (Z.of_nat a) = (if Nat.ltb (a mod 256) 128 then Z.of_nat (a mod 256) else Z.of_nat (a mod 256) - 256)%Z).
  { unfold int8. rewrite (Zplus_mod (Z.of_nat a) 128 256), <- Hm. destruct (Nat.ltb_spec (a mod 256) 128) as [Hs|Hs].
    - rewrite (Z.mod_small 128) by lia. rewrite Z.mod_small by lia. lia.
    - rewrite (Z.mod_small 128) by lia. replace (Z.of_nat (a mod 256) + 128)%Z with (Z.of_nat (a mod 256) - 128 + 1 * 256)%Z by lia.
      rewrite Z.mod_add by lia. rewrite Z.mod_small by lia. lia. }
  rewrite E8. unfold stored. cbv zeta. destruct (Nat.ltb_spec (a mod 256) 128) as [Hs|Hs]; [apply np_get_tab; lia|].
  unfold np_get. rewrite tab_length. rewrite (proj2 (Z.ltb_lt _ 0)) by lia.
  replace (Z.of_nat (a mod 256) - 256 + Z.of_nat K)%Z with (Z.of_nat (K + a mod 256 - 256)) by lia.
  rewrite (proj2 (Z.leb_le 0 _)), (proj2 (Z.ltb_lt _ (Z.of_nat K))) by lia. cbn [andb]. rewrite Nat2Z.id, nth_error_tab by lia. reflexivity.
Qed.
Lemma stored_small K a : (a < 128)%nat -> stored K a = a.
Proof. intros H. unfold stored. rewrite Nat.mod_small by lia. rewrite (proj2 (Nat.ltb_lt a 128)) by lia. reflexivity. Qed.
Lemma int8_small a : (a < 128)%nat -> int8 (Z.of_nat a) = Z.of_nat a.
Proof. intros H. unfold int8. rewrite Z.mod_small by lia. lia. Qed.

(** The weight matrix of a structure, as a function. *)
Definition weights (st : structure) (K L : nat) (W : nat -> nat -> R) : mat := if is_additive st then tabR2 K K W else tabR2 L L W.

Lemma fold_left_Rsum l b : fold_left Rplus l b = b + Rsum l.
Proof. revert b. induction l as [|a l IH]; intros b; simpl; [ring|]. rewrite IH. ring. Qed.

Lemma sum_list_others (p : nat -> bool) L f : sum_list (filter p (seq 0 L)) f = sumn L (fun q => if p q then f q else 0).
Proof. rewrite sum_list_filter. apply sum_list_seq. Qed.
Lemma filter_ltb j L : (j <= L)%nat -> filter (fun p => Nat.ltb p j) (seq 0 L) = seq 0 j.
Proof.
  intros H. replace L with (j + (L - j))%nat by lia. rewrite seq_app, filter_app. cbn [Nat.add].
  assert (E1 : filter (fun p => Nat.ltb p j) (seq 0 j) = seq 0 j).
  { assert (G : forall l, (forall x, In x l -> (x < j)%nat) -> filter (fun p => Nat.ltb p j) l = l).
    { induction l as [|x l IH]; intros Hl; [reflexivity|]. cbn [filter]. rewrite (proj2 (Nat.ltb_lt x j)) by (apply Hl; left; reflexivity).
      f_equal. apply IH. intros y Hy. apply Hl. right; assumption. }
    apply G. intros x Hx. apply in_seq in Hx. lia. }
  assert (E2 : filter (fun p => Nat.ltb p j) (seq j (L - j)) = []).
  { assert (G : forall l, (forall x, In x l -> (j <= x)%nat) -> filter (fun p => Nat.ltb p j) l = []).
    { induction l as [|x l IH]; intros Hl; [reflexivity|]. cbn [filter]. rewrite (proj2 (Nat.ltb_ge x j)) by (apply Hl; left; reflexivity).
      apply IH. intros y Hy. apply Hl. right; assumption. }
    apply G. intros x Hx. apply in_seq in Hx. lia. }
  rewrite E1, E2. apply app_nil_r.
Qed.

Lemma np_get_nat {A} n (f : nat -> A) a : (a < n)%nat -> np_get (tab n f) (Z.of_nat a) = Ok (f a).
Proof. intros H. apply np_get_tab. exact H. Qed.

Definition stored_row (K : nat) (row : list nat) : list nat := map (stored K) row.

Lemma slot_value_ok st K L W nE g per r (row : list nat) j : length row = L -> (forall a, In a row -> (a < K)%nat) -> (j < L)%nat -> (r / per < nE)%nat ->
  slot_value st (weights st K L W) (tabR2 nE K g) L per r (map (fun a => int8 (Z.of_nat a)) row) j = Ok (slot_total st W (g (r / per)%nat) L (slots (stored_row K row)) j).
Proof.
  intros Hl HK Hj Hr. unfold slot_value.
  assert (HrK : forall p, (p < L)%nat -> (nth p row 0 < K)%nat) by (intros p Hp; apply HK, nth_In; lia).
  assert (Hat : forall p, (p < L)%nat -> nth p (map (fun a => int8 (Z.of_nat a)) row) 0%Z = int8 (Z.of_nat (nth p row 0%nat))).
  { intros p Hp. exact (map_nth (fun a => int8 (Z.of_nat a)) row 0%nat p). }
  assert (Hst : forall p, (p < L)%nat -> nth p (stored_row K row) 0%nat = stored K (nth p row 0%nat)).
  { intros p Hp. unfold stored_row. rewrite (nth_indep _ 0%nat (stored K 0)) by (rewrite map_length; lia). apply map_nth. }
  assert (Hcell : forall p, (p < L)%nat -> np_get (nth (r / per) (tabR2 nE K g) []) (nth p (map (fun a => int8 (Z.of_nat a)) row) 0%Z) = Ok (g (r / per)%nat (nth p (stored_row K row) 0%nat))).
  { intros p Hp. unfold tabR2. rewrite nth_tab by exact Hr. rewrite Hat, Hst by exact Hp. apply int8_stored, HrK, Hp. }
  cbv zeta. rewrite Hcell by exact Hj. cbn [bind].
  assert (Eothers : (if is_cascade st then seq 0 j else filter (fun p2 => negb (Nat.eqb p2 j)) (seq 0 L)) =
                    filter (fun p => if is_cascade st then Nat.ltb p j else negb (Nat.eqb p j)) (seq 0 L)).
  { destruct (is_cascade st); [symmetry; apply filter_ltb; lia|reflexivity]. }
  assert (Hin : forall p, In p (filter (fun p => if is_cascade st then Nat.ltb p j else negb (Nat.eqb p j)) (seq 0 L)) -> (p < L)%nat).
  { intros p Hp. apply filter_In in Hp as [Hp _]. apply in_seq in Hp. lia. }
  destruct st; cbn [is_cascade is_additive] in *; try (unfold slot_total; rewrite sumn_zero by (intros; reflexivity); f_equal; ring);
    try rewrite Eothers; unfold weights; cbn [is_additive];
    match goal with |- context [mapM ?f ?l] =>
      first [ rewrite (mapM_Ok f (fun p => W (nth j (stored_row K row) 0%nat) (nth p (stored_row K row) 0%nat)) l);
                [|intros p Hp; specialize (Hin p Hp); unfold tabR2; rewrite Hat by exact Hj; rewrite int8_stored by (apply HrK, Hj); cbn [bind]; rewrite Hat by exact Hin;
                  rewrite !Hst by assumption; apply int8_stored, HrK, Hin]
            | rewrite (mapM_Ok f (fun p => g (r / per)%nat (nth p (stored_row K row) 0%nat) * W j p) l);
                [|intros p Hp; specialize (Hin p Hp); rewrite Hcell by exact Hin; cbn [bind]; unfold tabR2; rewrite !nth_tab by assumption; reflexivity] ]
    end; cbn [bind]; rewrite fold_left_Rsum; change (Rsum (map ?f ?l)) with (sum_list l f); rewrite sum_list_others; reflexivity.
Qed.

Lemma rows_values st K L W nE g per (rows : list (list nat)) : (forall row, In row rows -> length row = L /\ forall a, In a row -> (a < K)%nat) ->
  (forall r, (r < length rows)%nat -> (r / per < nE)%nat) ->
  mapM (fun ir => mapM (slot_value st (weights st K L W) (tabR2 nE K g) L per (fst ir) (snd ir)) (seq 0 L)) (combine (seq 0 (length rows)) (map (map (fun a => int8 (Z.of_nat a))) rows)) =
  Ok (tabR2 (length rows) L (fun r => slot_total st W (g (r / per)%nat) L (slots (stored_row K (nth r rows []))))).
Proof.
  intros Hrows Hr. rewrite (tab_eta rows []) at 2. rewrite map_tab.
  replace (seq 0 (length rows)) with (tab (length rows) (fun i => i)) by (unfold tab; apply map_id).
  rewrite combine_tab. unfold tabR2 at 2. apply (mapM_tab _ _ _ (fun r => tab L (fun j => slot_total st W (g (r / per)%nat) L (slots (stored_row K (nth r rows []))) j))).
  intros r Hlt. cbn [fst snd]. destruct (Hrows (nth r rows [])) as [Hl HK]; [apply nth_In; exact Hlt|].
  replace (seq 0 L) with (tab L (fun i => i)) by (unfold tab; apply map_id).
  apply (mapM_tab L (fun i => i) _ (fun j => slot_total st W (g (r / per)%nat) L (slots (stored_row K (nth r rows []))) j)).
  intros j Hj. apply slot_value_ok; auto.
Qed.

Lemma has_shape_tabR2 n k f : has_shape (tabR2 n k f) n k = true.
Proof.
  unfold has_shape, tabR2. rewrite tab_length, Nat.eqb_refl. cbn [andb]. rewrite forallb_tab. intros i Hi. rewrite tab_length. apply Nat.eqb_refl.
Qed.

(** The values of a list of slates, when [per] of them come before the next context is used. *)
Lemma interaction_rows n K L st W (E : nat -> nat -> R) binary (rows : list (list nat)) action (enumerated : bool) :
  (1 <= n)%nat -> (1 <= L)%nat -> (forall row, In row rows -> length row = L /\ forall a, In a row -> (a < K)%nat) ->
  (if enumerated then concat (repeat action n) else action) = map Z.of_nat (concat rows) ->
  (if enumerated then Nat.modulo (length action) L = 0%nat else length action = (L * n)%nat) ->
  (forall r, (r < length rows)%nat -> (r / (length rows * L / n) < n)%nat) ->
  interaction_reward (tabR2 n K E) n K action binary st (weights st K L W) L enumerated =
  Ok (tabR2 (length rows) L (fun r => slot_mean binary st W (E (r / (length rows * L / n))%nat) L (slots (stored_row K (nth r rows []))))).
Proof.
  intros Hn HL Hrows Hact Hlen Hr. unfold interaction_reward.
  assert (H1 : (enumerated && negb (Nat.eqb (length action mod L) 0))%bool = false) by (destruct enumerated; [rewrite Hlen|]; reflexivity).
  assert (H2 : (negb enumerated && negb (Nat.eqb (length action) (L * n)))%bool = false) by (destruct enumerated; [reflexivity|rewrite Hlen, Nat.eqb_refl; reflexivity]).
  rewrite H1, H2. cbn [raise_if bind].
  assert (Hw : (if is_additive st then has_shape (weights st K L W) K K else has_shape (weights st K L W) L L) = true).
  { unfold weights. destruct (is_additive st); apply has_shape_tabR2. }
  rewrite Hw. cbn [negb raise_if bind]. rewrite (proj2 (Nat.eqb_neq n 0)) by lia. cbn [raise_if bind]. cbv zeta. rewrite Hact.
  assert (Hrl : forall r, In r (map (map (fun a => int8 (Z.of_nat a))) rows) -> length r = L).
  { intros r Hin. apply in_map_iff in Hin as (row & <- & Hin). rewrite map_length. apply Hrows, Hin. }
  assert (Hlc : length (map Z.of_nat (concat rows)) = (length rows * L)%nat).
  { rewrite map_length. clear -Hrows. induction rows as [|row rows IH]; [reflexivity|]. cbn [concat length]. rewrite app_length, IH by (intros; apply Hrows; right; assumption).
    destruct (Hrows row (or_introl eq_refl)) as [-> _]. lia. }
  rewrite Hlc, Nat.div_mul by lia.
  assert (Erows : chunks (length rows) L (map int8 (map Z.of_nat (concat rows))) = map (map (fun a => int8 (Z.of_nat a))) rows).
  { rewrite map_map, concat_map. clear -Hrl. induction rows as [|row rows IH]; [reflexivity|]. cbn [map concat length chunks].
    assert (Hl : length (map (fun a => int8 (Z.of_nat a)) row) = L) by (apply Hrl; left; reflexivity).
    rewrite firstn_app, skipn_app, Hl, Nat.sub_diag. rewrite firstn_all2, skipn_all2 by lia. cbn [firstn skipn app]. rewrite app_nil_r. f_equal.
    apply IH. intros r Hin. apply Hrl. right; exact Hin. }
  rewrite Erows, map_length.
  assert (EE : (if binary then map (map logit_fn) (tabR2 n K E) else tabR2 n K E) = tabR2 n K (fun i a => if binary then ln (E i a / (1 - E i a)) else E i a)).
  { destruct binary; [|reflexivity]. unfold tabR2. rewrite map_tab. apply tab_ext. intros i _. rewrite map_tab. reflexivity. }
  rewrite EE, rows_values by auto. cbn [bind]. f_equal. unfold tabR2. rewrite map_tab. apply tab_ext. intros i Hi. rewrite map_tab. apply tab_ext. intros j _.
  unfold slot_mean. destruct binary; [|reflexivity]. rewrite C01_sigmoid_value. reflexivity.
Qed.

(** Reward means of logged slates: slate [i] gets the base reward of context [i / L]. *)
Lemma interaction_logged n K L st W (E : nat -> nat -> R) binary (s : nat -> list nat) : (1 <= n)%nat -> (1 <= L)%nat ->
  (forall i, (i < n)%nat -> length (s i) = L /\ forall a, In a (s i) -> (a < K)%nat) ->
  interaction_reward (tabR2 n K E) n K (logged n s) binary st (weights st K L W) L false =
  Ok (tabR2 n L (fun i j => slot_mean binary st W (E (i / L)%nat) L (slots (stored_row K (s i))) j)).
Proof.
  intros Hn HL Hs.
  assert (HlenZ : forall i, (i < n)%nat -> length (map Z.of_nat (s i)) = L) by (intros i Hi; rewrite map_length; apply Hs, Hi).
  assert (Hlen : length (logged n s) = (n * L)%nat) by (apply concat_tab_length, HlenZ).
  rewrite (interaction_rows n K L st W E binary (tab n s)); rewrite ?tab_length.
  - rewrite (Nat.mul_comm n L), Nat.div_mul by lia. f_equal. unfold tabR2. apply tab_ext. intros i Hi. rewrite nth_tab by exact Hi. reflexivity.
  - exact Hn.
  - exact HL.
  - intros row Hrow. apply In_tab in Hrow as (i & Hi & <-). apply Hs, Hi.
  - unfold logged. rewrite concat_map, map_tab. reflexivity.
  - rewrite Hlen. lia.
  - intros r Hr. rewrite (Nat.mul_comm n L), Nat.div_mul by lia. apply Nat.div_lt_upper_bound; nia.
Qed.
