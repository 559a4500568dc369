(** * P_SlateReward: logged slates, their rewards and policy values (C64, C65, C114-C118). *)

From Coq Require Import String Reals List ZArith Bool Lia Lra Sorted Permutation.
From Verif Require Import Num NpList M_Utils M_Data M_Slate M_SlateData S_Base S_Data S_SlateReg S_SlateData L_Num L_Base L_Utils L_Data L_SlateEst L_SlateData L_SlateReward
  P_Utils P_DataMC P_SlateData P_SlatePolicy.
Import ListNotations.
Open Scope R_scope.

(** ** The cascade-decay weights never act (C64) *)

Lemma mapM_seq_prefix {B} (f g : nat -> res B) : forall m k, (forall i, (i < k)%nat -> exists v, g i = Ok v) ->
  (forall j, (k <= j < k + m)%nat -> (forall i, (i < j)%nat -> exists v, g i = Ok v) -> f j = g j) -> mapM f (seq k m) = mapM g (seq k m).
Proof.
  induction m as [|m IH]; intros k Hk H; [reflexivity|]. cbn [seq mapM]. rewrite (H k) by (auto; lia). destruct (g k) as [v|e] eqn:E; cbn [bind]; [|reflexivity].
  rewrite IH; [reflexivity| |].
  - intros i Hi. destruct (Nat.eq_dec i k) as [->|]; [eauto|]. apply Hk. lia.
  - intros j Hj Hp. apply H; [lia|exact Hp].
Qed.

Lemma decay_row decay L E per r row : mapM (slot_value CascadeDecay (cascade_decay_matrix decay L) E L per r row) (seq 0 L) =
  mapM (slot_value Independent (repeat (repeat 0 L) L) E L per r row) (seq 0 L).
Proof.
  apply mapM_seq_prefix; [intros; lia|]. intros j Hj Hp. unfold slot_value. cbv zeta. cbn [is_additive is_cascade].
  destruct (np_get (nth (r / per) E []) (nth j row 0%Z)) as [base|e]; cbn [bind]; [|reflexivity].
  rewrite (mapM_Ok _ (fun _ => 0)).
  - cbn [bind]. f_equal. rewrite fold_left_Rsum. change (Rsum (map ?f ?l)) with (sum_list l f). rewrite sum_list_const. ring.
  - intros p Hin. apply in_seq in Hin. destruct (Hp p ltac:(lia)) as [v Hv]. unfold slot_value in Hv. cbv zeta in Hv.
    destruct (np_get (nth (r / per) E []) (nth p row 0%Z)) as [e|e]; cbn [bind] in *; [|discriminate]. f_equal.
    assert (Ew : nth p (nth j (cascade_decay_matrix decay L) []) 0 = 0).
    { unfold cascade_decay_matrix. change (map ?f (seq 0 L)) with (tab L f). rewrite nth_tab by lia.
      change (map ?f (seq 0 L)) with (tab L f). rewrite nth_tab by lia. rewrite (proj2 (Nat.leb_le p j)) by lia. reflexivity. }
    rewrite Ew. ring.
Qed.

Lemma cascade_shape decay L : has_shape (cascade_decay_matrix decay L) L L = true.
Proof.
  unfold has_shape, cascade_decay_matrix. rewrite map_length, seq_length, Nat.eqb_refl. cbn [andb]. apply forallb_forall. intros x Hx.
  apply in_map_iff in Hx as (i & <- & _). rewrite map_length, seq_length. apply Nat.eqb_refl.
Qed.
Lemma zero_shape L : has_shape (repeat (repeat 0 L) L) L L = true.
Proof.
  unfold has_shape. rewrite repeat_length, Nat.eqb_refl. cbn [andb]. apply forallb_forall. intros x Hx. apply repeat_spec in Hx. subst. rewrite repeat_length. apply Nat.eqb_refl.
Qed.

Theorem C64_rewards : forall decay E n K action binary L enumerated,
  interaction_reward E n K action binary CascadeDecay (cascade_decay_matrix decay L) L enumerated =
  interaction_reward E n K action binary Independent (repeat (repeat 0 L) L) L enumerated.
Proof.
  intros. unfold interaction_reward. cbn [is_additive]. rewrite cascade_shape, zero_shape. cbn [negb raise_if bind].
  assert (G : forall per E rows, mapM (fun ir => mapM (slot_value CascadeDecay (cascade_decay_matrix decay L) E L per (fst ir) (snd ir)) (seq 0 L)) rows =
                            mapM (fun ir => mapM (slot_value Independent (repeat (repeat 0 L) L) E L per (fst ir) (snd ir)) (seq 0 L)) rows).
  { intros. apply mapM_ext. intros. apply decay_row. }
  cbv zeta. rewrite G. reflexivity.
Qed.

Theorem C64_dataset : forall K L dim rt decay click eta fact normal d,
  slate_init K L dim rt "cascade_decay" decay click eta fact normal = Ok d ->
  exists d', slate_init K L dim rt "independent" decay click eta fact normal = Ok d' /\
    (forall free base beh tn n_rounds context item clip us flip,
       slate_obtain d free base beh tn n_rounds context item clip us flip = slate_obtain d' free base beh tn n_rounds context item clip us flip) /\
    (forall free base context logit, slate_ground_truth d free base context logit = slate_ground_truth d' free base context logit).
Proof.
  intros K L dim rt decay click eta fact normal d. unfold slate_init.
  destruct (check_scalar_Z K _ _) as [[]|]; cbn [bind]; [|discriminate].
  destruct (check_scalar_Z L _ _) as [[]|]; cbn [bind]; [|discriminate].
  destruct (check_scalar_Z dim _ _) as [[]|]; cbn [bind]; [|discriminate].
  destruct (raise_if (negb (_ || _)) _) as [[]|]; cbn [bind]; [|discriminate].
  change (structure_of "cascade_decay") with (Some CascadeDecay). change (structure_of "independent") with (Some Independent).
  destruct (raise_if (negb ((decay =? _)%string || _)) _) as [[]|]; cbn [bind]; [|discriminate].
  destruct (raise_if _ _) as [[]|]; cbn [bind]; [|discriminate].
  destruct (match click with None => _ | Some _ => _ end) as [[]|]; cbn [bind]; [|discriminate]. cbv zeta.
  destruct (match click with Some _ => _ | None => _ end) as [exam att]. cbn [is_additive].
  destruct (raise_if _ _) as [[]|]; cbn [bind]; [|discriminate].
  intros E. injection E as <-. eexists. split; [reflexivity|]. split.
  - intros. unfold slate_obtain, sample_slates, sample_slate_reward. cbn [sd_K sd_L sd_fact sd_binary sd_structure sd_W sd_exam sd_att].
    destruct base as [f|]; [|reflexivity].
    repeat match goal with |- bind ?x _ = bind ?x _ => destruct x; cbn [bind]; [|reflexivity] end. cbv zeta. rewrite C64_rewards. reflexivity.
  - intros. unfold slate_ground_truth. cbn [sd_K sd_L sd_dim sd_fact sd_binary sd_structure sd_W sd_exam sd_att].
    destruct base as [f|]; [|reflexivity].
    repeat match goal with |- bind ?x _ = bind ?x _ => destruct x; cbn [bind]; [|reflexivity] end. cbv zeta.
    match goal with |- bind (mapM ?F ?l) _ = bind (mapM ?G ?l) _ => rewrite (mapM_ext F G l); [reflexivity|] end.
    intros cp _. rewrite C64_rewards. reflexivity.
Qed.

(** ** Construction *)

(** What [__post_init__] accepts. *)
Definition accepted (K L dim : Z) (rt st decay : string) (click : option string) (eta : R) (fact : bool) : Prop :=
  (2 <= K)%Z /\ (2 <= L)%Z /\ (fact = false -> (L <= K)%Z) /\ (1 <= dim)%Z /\
  (rt = "binary" \/ rt = "continuous")%string /\
  (st = "independent" \/ st = "cascade_additive" \/ st = "standard_additive" \/ st = "cascade_decay" \/ st = "standard_decay")%string /\
  (decay = "exponential" \/ decay = "inverse")%string /\
  match click with
  | None => True
  | Some c => (c = "cascade" \/ c = "pbm")%string /\ 0 <= eta /\ rt = "binary"%string
  end.
(** The weight of the pair (a,b) of actions (additive) or of the pair of slots (decay, independent). *)
Definition weight_of (st : structure) (decay : nat -> R) (normal : nat -> nat -> R) (a b : nat) : R :=
  match st with
  | CascadeAdditive | StandardAdditive => normal (Nat.max a b) (Nat.min a b)
  | Independent | CascadeDecay => if (match st with Independent => true | _ => Nat.leb b a end) then 0 else - decay (Nat.max a b - Nat.min a b)%nat
  | StandardDecay => if Nat.eqb a b then 0 else - decay (Nat.max a b - Nat.min a b)%nat
  end.
Definition power (eta : R) (k : nat) : R := Rpower (1 / INR (S k)) eta.

Lemma symmetric_tab K normal : symmetric_matrix K normal = tabR2 K K (fun a b => normal (Nat.max a b) (Nat.min a b)).
Proof.
  unfold symmetric_matrix, tabR2. change (map ?f (seq 0 K)) with (tab K f) at 1. apply tab_ext. intros i Hi. change (map ?f (seq 0 K)) with (tab K f). apply tab_ext. intros j Hj.
  unfold tril. destruct (Nat.leb_spec j i), (Nat.leb_spec i j), (Nat.eqb_spec i j); try lia.
  - subst. rewrite Nat.max_id, Nat.min_id. ring.
  - rewrite Nat.max_l, Nat.min_r by lia. ring.
  - rewrite Nat.max_r, Nat.min_l by lia. ring.
Qed.

Theorem C117_init : forall K L dim rt st decay click eta fact normal,
  (accepted K L dim rt st decay click eta fact ->
   exists d, slate_init K L dim rt st decay click eta fact normal = Ok d /\
     sd_K d = Z.to_nat K /\ sd_L d = Z.to_nat L /\ sd_dim d = Z.to_nat dim /\ sd_fact d = fact /\
     structure_of st = Some (sd_structure d) /\ (sd_binary d = true <-> rt = "binary"%string) /\
     sd_exam d = tab (sd_L d) (fun k => if match click with Some c => String.eqb c "pbm" | None => false end then power eta k else 1) /\
     sd_att d = tab (sd_L d) (fun k => if match click with Some c => String.eqb c "cascade" | None => false end then power eta k else 1) /\
     sd_W d = weights (sd_structure d) (sd_K d) (sd_L d)
                (weight_of (sd_structure d) (if String.eqb decay "exponential" then fun gap => exp (- INR gap) else fun gap => 1 / (INR gap + 1)) normal)) /\
  (~ accepted K L dim rt st decay click eta fact -> slate_init K L dim rt st decay click eta fact normal = Err ValueError).
Proof.
  intros K L dim rt st decay click eta fact normal. unfold accepted, slate_init, check_scalar_Z, raise_if.
  destruct (Z.ltb_spec K 2) as [H1|H1]; cbn [bind]; [split; [lia|reflexivity]|].
  destruct (Z.ltb_spec L 2) as [H2|H2]; cbn [bind]; [split; [lia|reflexivity]|].
  assert (H3 : (fact = false -> (L <= K)%Z) \/ (match (if fact then None else Some K) with Some m => if Z.ltb m L then Err ValueError else Ok tt | None => Ok tt end = Err ValueError /\ ~ (fact = false -> (L <= K)%Z))).
  { destruct fact; [left; discriminate|]. destruct (Z.ltb_spec K L); [right; split; [reflexivity|]|left; auto]. intros Hc. specialize (Hc eq_refl). lia. }
  destruct H3 as [H3|[H3 H3']]; [|rewrite H3; cbn [bind]; split; [tauto|reflexivity]].
  assert (E3 : match (if fact then None else Some K) with Some m => if Z.ltb m L then Err ValueError else Ok tt | None => Ok tt end = Ok tt).
  { destruct fact; [reflexivity|]. rewrite (proj2 (Z.ltb_ge K L)) by (apply H3; reflexivity). reflexivity. }
  rewrite E3. cbn [bind].
  destruct (Z.ltb_spec dim 1) as [H4|H4]; cbn [bind]; [split; [lia|reflexivity]|].
  destruct (String.eqb rt "binary" || String.eqb rt "continuous")%bool eqn:E5; cbn [negb bind].
  2:{ apply orb_false_iff in E5 as [A B]. apply String.eqb_neq in A, B. split; [tauto|reflexivity]. }
  assert (H5 : (rt = "binary" \/ rt = "continuous")%string) by (apply orb_true_iff in E5 as [A|A]; apply String.eqb_eq in A; auto).
  destruct (structure_of st) as [sv|] eqn:E6.
  2:{ split; [|reflexivity]. intros (_ & _ & _ & _ & _ & H & _). exfalso. destruct H as [-> |[-> |[-> |[-> | ->]]]]; discriminate. }
  assert (H6 : (st = "independent" \/ st = "cascade_additive" \/ st = "standard_additive" \/ st = "cascade_decay" \/ st = "standard_decay")%string).
  { unfold structure_of in E6. repeat match type of E6 with (if String.eqb ?a ?b then _ else _) = _ => destruct (String.eqb_spec a b); [subst; tauto|] end. discriminate. }
  destruct (String.eqb decay "exponential" || String.eqb decay "inverse")%bool eqn:E7; cbn [negb bind].
  2:{ apply orb_false_iff in E7 as [A B]. apply String.eqb_neq in A, B. split; [tauto|reflexivity]. }
  assert (H7 : (decay = "exponential" \/ decay = "inverse")%string) by (apply orb_true_iff in E7 as [A|A]; apply String.eqb_eq in A; auto).
  assert (HW : forall dec l, (if is_additive sv then symmetric_matrix (Z.to_nat K) normal else match sv with StandardDecay => standard_decay_matrix dec l | CascadeDecay => cascade_decay_matrix dec l | _ => repeat (repeat 0 l) l end) =
               weights sv (Z.to_nat K) l (weight_of sv dec normal)).
  { intros dec l. unfold weights. destruct sv; cbn [is_additive]; try apply symmetric_tab; try reflexivity.
    rewrite repeat_is_tab. unfold tabR2. apply tab_ext. intros i Hi. apply repeat_is_tab. }
  assert (Hones : forall l, repeat 1 l = tab l (fun _ => 1)) by (intros; apply repeat_is_tab).
  assert (Hpow : forall l, map (fun k => Rpower (1 / INR k) eta) (seq 1 l) = tab l (power eta)).
  { intros l. rewrite <- seq_shift, map_map. reflexivity. }
  destruct click as [c|].
  - destruct (String.eqb c "cascade" || String.eqb c "pbm")%bool eqn:E8; cbn [negb bind].
    2:{ apply orb_false_iff in E8 as [A B]. apply String.eqb_neq in A, B. split; [tauto|reflexivity]. }
    assert (H8 : (c = "cascade" \/ c = "pbm")%string) by (apply orb_true_iff in E8 as [A|A]; apply String.eqb_eq in A; auto).
    destruct (Rlt_dec eta 0) as [H9|H9].
    + assert (Ec : check_scalar (Fin eta) (Some (Fin 0)) None = Err ValueError) by (unfold check_scalar; cbn; rewrite (proj2 (Rltb_true _ _)) by lra; reflexivity).
      rewrite Ec. cbn [bind]. split; [|reflexivity]. intros H. exfalso. destruct H as (_ & _ & _ & _ & _ & _ & _ & _ & H & _). lra.
    + rewrite check_nonneg by lra. cbn [bind]. cbv zeta.
      destruct (String.eqb_spec rt "continuous") as [->|H10].
      * assert (Ee : forall A B (x y : A * B) (b : bool), (let '(e, a) := if b then x else y in @Err slate_ds ValueError) = Err ValueError) by (intros ? ? [] [] []; reflexivity).
        split; [|destruct (c =? "pbm")%string; reflexivity]. intros H. exfalso. destruct H as (_ & _ & _ & _ & _ & _ & _ & _ & _ & H). discriminate.
      * assert (Hb : rt = "binary"%string) by (destruct H5; congruence). split; [|intros H; exfalso; apply H; repeat split; auto; lra]. intros _.
        destruct H8 as [-> | ->]; cbn [String.eqb Ascii.eqb Bool.eqb bind]; eexists; (split; [reflexivity|]); cbn [sd_K sd_L sd_dim sd_fact sd_structure sd_binary sd_exam sd_att sd_W];
          (split; [reflexivity|]); (split; [reflexivity|]); (split; [reflexivity|]); (split; [reflexivity|]); (split; [reflexivity|]);
          (split; [rewrite String.eqb_eq; reflexivity|]); (split; [first [apply Hpow|apply Hones]|]); (split; [first [apply Hpow|apply Hones]|]); apply HW.
  - cbn [bind]. cbv zeta. split; [|intros H; exfalso; apply H; repeat split; auto]. intros _. eexists. split; [reflexivity|].
    cbn [sd_K sd_L sd_dim sd_fact sd_structure sd_binary sd_exam sd_att sd_W].
    split; [reflexivity|]. split; [reflexivity|]. split; [reflexivity|]. split; [reflexivity|]. split; [reflexivity|].
    split; [rewrite String.eqb_eq; reflexivity|]. split; [apply Hones|]. split; [apply Hones|]. apply HW.
Qed.

(** Examination and attractiveness weights are probabilities. *)
Lemma power_range eta k : 0 <= eta -> 0 < power eta k <= 1.
Proof.
  intros H. unfold power. split; [apply exp_pos|]. unfold Rpower. apply Rle_trans with (exp 0); [|rewrite exp_0; lra].
  assert (Hln : ln (1 / INR (S k)) <= 0).
  { rewrite <- ln_1. assert (1 <= INR (S k)) by (rewrite S_INR; pose proof (pos_INR k); lra).
    destruct (Rle_lt_or_eq_dec 1 (INR (S k)) H0) as [Hl|He]; [|right; f_equal; rewrite <- He; field].
    left. apply ln_increasing; [apply Rdiv_lt_0_compat; lra|]. apply (Rmult_lt_reg_r (INR (S k))); [lra|]. unfold Rdiv. rewrite Rmult_assoc, Rinv_l by lra. lra. }
  assert (eta * ln (1 / INR (S k)) <= 0) by (rewrite <- (Rmult_0_r eta); apply Rmult_le_compat_l; assumption).
  destruct (Rle_lt_or_eq_dec _ _ H0) as [Hl|He]; [left; apply exp_increasing, Hl|rewrite He; lra].
Qed.

(** ** Clicks *)

(** Whether slots 0, 1, ... are clicked: slot [j] with its base probability [x j], discounted by the attractiveness of slot i+1 for every
    clicked slot i before it; [flip j p] decides the click of slot [j] at probability [p]. *)
Definition clicks (att : nat -> R) (flip : nat -> R -> bool) (L : nat) (x : nat -> R) (y : nat -> bool) : Prop :=
  forall j, (j < L)%nat -> y j = flip j (prodn j (fun i => if y i then att (S i) else 1) * x j).

Lemma unit_mul a b : 0 <= a <= 1 -> 0 <= b <= 1 -> 0 <= a * b <= 1.
Proof. intros. split; nra. Qed.
Lemma prodn_range n f : (forall k, (k < n)%nat -> 0 <= f k <= 1) -> 0 <= prodn n f <= 1.
Proof.
  induction n as [|n IH]; intros H; cbn [prodn]; [lra|]. assert (H1 : 0 <= prodn n f <= 1) by (apply IH; intros; apply H; lia). assert (H2 := H n ltac:(lia)).
  apply unit_mul; lra.
Qed.

Lemma click_loop_ok (att : list R) (flip : nat -> R -> bool) : (forall k, 0 <= nth k att 0 <= 1) ->
  forall m pos disc prev x, 0 <= disc <= 1 -> (forall k, (k < m)%nat -> 0 <= x k <= 1) ->
  exists y, click_loop att flip pos disc (b2r prev) (tab m x) = Ok (tab m (fun k => b2r (y k))) /\
    forall k, (k < m)%nat -> y k = flip (pos + k)%nat (disc * (if prev then nth pos att 0 else 1) * prodn k (fun i => if y i then nth (pos + S i) att 0 else 1) * x k).
Proof.
  intros Hatt. induction m as [|m IH]; intros pos disc prev x Hd Hx.
  - exists (fun _ => false). split; [reflexivity|]. intros; lia.
  - rewrite tab_S_first. cbn [click_loop].
    assert (Ed : disc * (b2r prev * nth pos att 0 + (1 - b2r prev)) = disc * (if prev then nth pos att 0 else 1)) by (destruct prev; cbn [b2r]; ring).
    rewrite Ed. set (D := disc * (if prev then nth pos att 0 else 1)).
    assert (HD : 0 <= D <= 1).
    { unfold D. assert (Hp : 0 <= (if prev then nth pos att 0 else 1) <= 1) by (destruct prev; [apply Hatt|lra]).
      apply unit_mul; lra. }
    assert (H0 := Hx 0%nat ltac:(lia)).
    assert (Hp : 0 <= D * x 0%nat <= 1) by (apply unit_mul; lra).
    rewrite (proj2 (Rltb_false _ _)) by lra. rewrite (proj2 (Rltb_false _ _)) by lra. cbn [orb raise_if bind].
    set (y0 := flip pos (D * x 0%nat)).
    destruct (IH (S pos) D y0 (fun k => x (S k)) HD ltac:(intros; apply Hx; lia)) as (y & E & Hy).
    change (if y0 then 1 else 0) with (b2r y0). rewrite E. cbn [bind].
    exists (fun k => match k with O => y0 | S k => y k end). split; [rewrite tab_S_first; reflexivity|].
    intros k Hk. destruct k as [|k].
    + cbn [prodn]. rewrite Nat.add_0_r, Rmult_1_r. reflexivity.
    + rewrite Hy by lia. rewrite prodn_first. cbn [nth]. replace (pos + S k)%nat with (S pos + k)%nat by lia. replace (pos + 1)%nat with (S pos) by lia.
      f_equal. rewrite (prodn_ext k (fun i => if y i then nth (S pos + S i) att 0 else 1) (fun i => if y i then nth (pos + S (S i)) att 0 else 1)).
      * ring.
      * intros i _. replace (S pos + S i)%nat with (pos + S (S i))%nat by lia. reflexivity.
Qed.

Lemma clicks_unique att flip L x y z : clicks att flip L x y -> clicks att flip L x z -> forall j, (j < L)%nat -> y j = z j.
Proof.
  intros Hy Hz j. induction j as [j IH] using lt_wf_ind. intros Hj. rewrite Hy, Hz by exact Hj. f_equal. f_equal. apply prodn_ext. intros i Hi.
  rewrite IH by lia. reflexivity.
Qed.

(** One slate of binary rewards. *)
Lemma click_loop_clicks att flip L x : (forall k, 0 <= nth k att 0 <= 1) -> (forall k, (k < L)%nat -> 0 <= x k <= 1) ->
  exists y, click_loop att flip 0 1 0 (tab L x) = Ok (tab L (fun j => b2r (y j))) /\ clicks (fun k => nth k att 0) flip L x y.
Proof.
  intros Ha Hx. destruct (click_loop_ok att flip Ha L 0 1 false x ltac:(lra) Hx) as (y & E & Hy). exists y. split; [exact E|].
  intros j Hj. rewrite Hy by exact Hj. cbn [Nat.add]. f_equal. ring.
Qed.

(** ** A batch of logged slates *)

(** The reward means of slate [i] of the log: from a table without contexts, or from the base rewards of *context i / len_list*. *)
Definition logged_mean (d : slate_ds) (free : nat -> nat -> R) (E : option (nat -> nat -> R)) (W : nat -> nat -> R) (s : nat -> list nat) (i j : nat) : R :=
  match E with
  | None => free (nth j (s i) 0%nat) j
  | Some E => slot_mean (sd_binary d) (sd_structure d) W (E (i / sd_L d)%nat) (sd_L d) (slots (map (stored (sd_K d)) (s i))) j
  end.

Record setting (d : slate_ds) (n : nat) (free : nat -> nat -> R) (E lg : option (nat -> nat -> R)) (W : nat -> nat -> R)
    (context : mat) (base beh : option (mat -> mat)) : Prop := {
  se_L : (1 <= sd_L d)%nat;
  se_fit : if sd_fact d then (1 <= sd_K d)%nat else (sd_L d <= sd_K d)%nat;
  se_exam : length (sd_exam d) = sd_L d /\ forall k, (k < sd_L d)%nat -> 0 <= nth k (sd_exam d) 0 <= 1;
  se_att : forall k, 0 <= nth k (sd_att d) 0 <= 1;
  se_W : sd_W d = weights (sd_structure d) (sd_K d) (sd_L d) W;
  se_n : (1 <= n)%nat /\ length context = n;
  se_base : match base, E with None, None => True | Some f, Some E => f context = tabR2 n (sd_K d) E | _, _ => False end;
  se_beh : match beh, lg with None, None => True | Some f, Some lg => f context = tabR2 n (sd_K d) lg | _, _ => False end;
  se_prob : sd_binary d = true -> (forall a j, (a < sd_K d)%nat -> (j < sd_L d)%nat -> 0 <= free a j <= 1) /\
            match E with Some E => forall i a, (i < n)%nat -> (a < sd_K d)%nat -> 0 < E i a < 1 | None => True end }.
Definition logits_of (d : slate_ds) (lg : option (nat -> nat -> R)) : nat -> nat -> R := match lg with Some f => f | None => fun _ _ => 1 / INR (sd_K d) end.

Lemma slot_mean_binary st W g L s j : 0 < slot_mean true st W g L s j < 1.
Proof.
  unfold slot_mean. set (v := slot_total _ _ _ _ _ _). pose proof (exp_pos (- v)). split; [apply Rdiv_lt_0_compat; lra|].
  apply (Rmult_lt_reg_r (1 + exp (- v))); [lra|]. unfold Rdiv. rewrite Rmult_assoc, Rinv_l by lra. lra.
Qed.

Lemma obtain_batch d n free E lg W context base beh tn (us : nat -> nat -> R) (all : list (list nat)) item clip flip :
  setting d n free E lg W context base beh ->
  (forall i j, (i < n)%nat -> (j < sd_L d)%nat -> 0 <= us i j < 1) ->
  enumerates all (slate_of (sd_fact d) (sd_K d) (sd_L d)) ->
  (item = true -> forall c, clip = Some c -> c <= 700) ->
  exists s ps,
    let uniform := match beh with None => true | Some _ => false end in
    let m i j := logged_mean d free E W s i j * nth j (sd_exam d) 0 in
    let P i k := ranking_prob (sd_fact d) (sd_K d) (fun a => exp (logits_of d lg i a)) (slots (s i)) k in
    ((forall i, (i < n)%nat -> slate_of (sd_fact d) (sd_K d) (sd_L d) (s i)) /\
     ps_cascade ps = flat n (sd_L d) (fun i j => P i (S j)) /\
     ps_joint ps = flat n (sd_L d) (fun i _ => P i (sd_L d)) /\
     ps_item ps = (if item then Some (flat n (sd_L d) (fun i j =>
                     if uniform then 1 / INR (sd_K d)
                     else item_prob (sd_fact d) (sd_K d) (sd_L d)
                            (fun a => exp (if (Nat.eqb j 0 || sd_fact d)%bool then logits_of d lg i a else clipped clip (logits_of d lg i a))) all j (nth j (s i) 0%nat)))
                   else None)) /\
    exists r, slate_obtain d (tabR2 (sd_K d) (sd_L d) free) base beh tn (Z.of_nat n) context item clip (tabR2 n (sd_L d) us) flip =
      Ok (mkSb n (flat n (sd_L d) (fun i _ => Z.of_nat i)) (flat n (sd_L d) (fun _ j => Z.of_nat j)) (logged n s) (flat n (sd_L d) r) (flat n (sd_L d) m) ps) /\
    if sd_binary d
    then exists y, (forall i, (i < n)%nat -> clicks (fun k => nth k (sd_att d) 0) (flip i) (sd_L d) (m i) (y i)) /\ r = (fun i j => b2r (y i j))
    else r = (fun i j => tn (- m i j) (10 ^ 10 - m i j) (m i j) 1 i).
Proof.
  intros [HL Hfit [Hel He] Hatt HW [Hn Hc] Hbase Hbeh Hprob] Hus Hall Hclip.
  destruct (C62_sampling d (match beh with None => true | Some _ => false end) n (logits_of d lg) us all item clip HL Hfit Hus Hall Hclip) as (s & ps & Es & Hps & _). pose proof Hps as (Hs & _).
  exists s, ps. cbv zeta. split; [exact Hps|].
  set (m := fun i j => logged_mean d free E W s i j * nth j (sd_exam d) 0).
  assert (HlenZ : forall i, (i < n)%nat -> length (map Z.of_nat (s i)) = sd_L d) by (intros i Hi; rewrite map_length; apply Hs, Hi).
  assert (Ech : chunks n (sd_L d) (logged n s) = tab n (fun i => map Z.of_nat (s i))) by (apply chunks_concat, HlenZ).
  unfold slate_obtain. unfold check_scalar_Z at 1. rewrite (proj2 (Z.ltb_ge _ 1)) by lia. cbn [raise_if bind]. rewrite Nat2Z.id.
  assert (Elg : match beh with None => repeat (repeat (1 / INR (sd_K d)) (sd_K d)) n | Some f => f context end = tabR2 n (sd_K d) (logits_of d lg)).
  { destruct beh, lg; try contradiction; [exact Hbeh|]. unfold tabR2, logits_of. rewrite repeat_is_tab. apply tab_ext. intros. apply repeat_is_tab. }
  cbv zeta. rewrite Elg, has_shape_tabR2. cbn [negb raise_if bind]. rewrite Es. cbn [bind fst snd].
  assert (Eexp : (match base with
               | None => mapM (fun row => mapM (fun pa => r <- np_get (tabR2 (sd_K d) (sd_L d) free) (snd pa) ;; np_get r (Z.of_nat (fst pa))) (combine (seq 0 (sd_L d)) row))
                              (chunks n (sd_L d) (logged n s))
               | Some f => interaction_reward (f context) (length context) (sd_K d) (logged n s) (sd_binary d) (sd_structure d) (sd_W d) (sd_L d) false
               end) = Ok (tabR2 n (sd_L d) (logged_mean d free E W s))).
  { destruct base as [f|], E as [E|]; try contradiction.
    - rewrite Hbase, Hc, HW. apply interaction_logged; [exact Hn|exact HL|]. intros i Hi. destruct (Hs i Hi) as (A & B & _). auto.
    - rewrite Ech. unfold tabR2 at 2. apply (mapM_tab n _ _ (fun i => tab (sd_L d) (logged_mean d free None W s i))). intros i Hi.
      destruct (Hs i Hi) as (A & B & _). replace (seq 0 (sd_L d)) with (tab (sd_L d) (fun i => i)) by (unfold tab; apply map_id).
      rewrite (tab_eta (s i) 0%nat) at 1. rewrite A, map_tab, combine_tab. apply (mapM_tab (sd_L d) _ _ (logged_mean d free None W s i)). intros j Hj. cbn [fst snd].
      unfold tabR2. rewrite np_get_tab by (apply B, nth_In; lia). cbn [bind]. rewrite np_get_tab by exact Hj. reflexivity. }
  rewrite Eexp. cbn [bind]. rewrite has_shape_tabR2. cbn [negb raise_if bind].
  assert (Eex : map (examined (sd_exam d)) (tabR2 n (sd_L d) (logged_mean d free E W s)) = tabR2 n (sd_L d) m).
  { unfold tabR2. rewrite map_tab. apply tab_ext. intros i Hi. unfold examined. rewrite (tab_eta (sd_exam d) 0), Hel, combine_tab, map_tab. reflexivity. }
  assert (Eids : map Z.of_nat (concat (map (fun i => repeat i (sd_L d)) (seq 0 n))) = flat n (sd_L d) (fun i _ => Z.of_nat i)).
  { change (map ?f (seq 0 n)) with (tab n f). rewrite concat_map, map_tab. unfold flat. f_equal. apply tab_ext. intros i Hi. rewrite repeat_is_tab, map_tab. reflexivity. }
  assert (Epos : map Z.of_nat (concat (repeat (seq 0 (sd_L d)) n)) = flat n (sd_L d) (fun _ j => Z.of_nat j)).
  { rewrite repeat_is_tab, concat_map, map_tab. unfold flat. f_equal. }
  rewrite Eids, Epos. unfold sample_slate_reward. cbv zeta. rewrite Eex.
  assert (El : length (tabR2 n (sd_L d) m) = n) by (unfold tabR2; apply tab_length). rewrite El.
  assert (Ecomb : combine (seq 0 n) (tabR2 n (sd_L d) m) = tab n (fun i => (i, tab (sd_L d) (m i)))).
  { unfold tabR2. replace (seq 0 n) with (tab n (fun i => i)) by (unfold tab; apply map_id). apply combine_tab. }
  rewrite Ecomb. destruct (sd_binary d) eqn:Eb.
  - destruct (Hprob eq_refl) as [Hfree HE].
    assert (Hm : forall i j, (i < n)%nat -> (j < sd_L d)%nat -> 0 <= m i j <= 1).
    { intros i j Hi Hj. unfold m. destruct (Hs i Hi) as (A & B & _).
      assert (H1 : 0 <= logged_mean d free E W s i j <= 1).
      { unfold logged_mean. destruct E as [E|]; [rewrite Eb; pose proof (slot_mean_binary (sd_structure d) W (E (i / sd_L d)%nat) (sd_L d) (slots (map (stored (sd_K d)) (s i))) j); lra|].
        apply Hfree; [apply B, nth_In; lia|exact Hj]. }
      specialize (He j Hj). apply unit_mul; lra. }
    assert (Hy : exists y : nat -> nat -> bool, forall i, (i < n)%nat -> click_loop (sd_att d) (flip i) 0 1 0 (tab (sd_L d) (m i)) = Ok (tab (sd_L d) (fun j => b2r (y i j))) /\
                   clicks (fun k => nth k (sd_att d) 0) (flip i) (sd_L d) (m i) (y i)).
    { clear -Hatt Hm. induction n as [|n IH].
      - exists (fun _ _ => false). intros; lia.
      - destruct IH as (y & Hy); [intros; apply Hm; lia|].
        destruct (click_loop_clicks (sd_att d) (flip n) (sd_L d) (m n) Hatt ltac:(intros; apply Hm; lia)) as (z & Hz).
        exists (fun i => if Nat.eqb i n then z else y i). intros i Hi. destruct (Nat.eqb_spec i n) as [->|]; [exact Hz|apply Hy; lia]. }
    destruct Hy as (y & Hy). exists (fun i j => b2r (y i j)).
    rewrite (mapM_tab n _ _ (fun i => tab (sd_L d) (fun j => b2r (y i j)))) by (intros i Hi; cbn [fst snd]; apply Hy, Hi). cbn [bind fst snd].
    split; [reflexivity|]. exists y. split; [intros i Hi; apply Hy, Hi|reflexivity].
  - exists (fun i j => tn (- m i j) (10 ^ 10 - m i j) (m i j) 1 i). cbn [bind fst snd]. split; [|reflexivity]. do 2 f_equal.
    unfold flat. f_equal. rewrite map_tab. apply tab_ext. intros i Hi. cbn [fst snd]. rewrite map_tab. apply tab_ext. intros j Hj.
    f_equal; field.
Qed.

(** *** Layout (C65) *)

(** Datasets that the constructor accepts have what [setting] asks of the dataset. *)
Theorem C65_setting : forall K L dim rt st decay click eta fact normal, accepted K L dim rt st decay click eta fact ->
  exists d, slate_init K L dim rt st decay click eta fact normal = Ok d /\
    (1 <= sd_L d)%nat /\ (if sd_fact d then (1 <= sd_K d)%nat else (sd_L d <= sd_K d)%nat) /\
    (length (sd_exam d) = sd_L d /\ forall k, (k < sd_L d)%nat -> 0 <= nth k (sd_exam d) 0 <= 1) /\
    (forall k, 0 <= nth k (sd_att d) 0 <= 1) /\
    exists W, sd_W d = weights (sd_structure d) (sd_K d) (sd_L d) W.
Proof.
  intros K L dim rt st decay click eta fact normal H.
  destruct (C117_init K L dim rt st decay click eta fact normal) as [Hi _]. destruct (Hi H) as (d & E & HK & HL & _ & Hf & _ & _ & He & Ha & HW).
  exists d. split; [exact E|]. destruct H as (H1 & H2 & H3 & _ & _ & _ & _ & Hcl). rewrite HL, HK, Hf in *.
  assert (Hp : forall b k, 0 <= (if match click with Some c => String.eqb c b | None => false end then power eta k else 1) <= 1).
  { intros b k. destruct click as [c|]; [|lra]. destruct (c =? b)%string; [|lra]. destruct Hcl as (_ & Hc & _). pose proof (power_range eta k Hc). lra. }
  split; [lia|]. split; [destruct fact; [lia|]; specialize (H3 eq_refl); lia|]. split; [|split; [|eauto]].
  - rewrite He. split; [apply tab_length|]. intros k Hk. rewrite nth_tab by exact Hk. apply Hp.
  - intros k. destruct (Nat.lt_ge_cases k (Z.to_nat L)) as [Hk|Hk]; [rewrite Ha, nth_tab by exact Hk; apply Hp|].
    rewrite nth_overflow by (rewrite Ha, tab_length; exact Hk). lra.
Qed.

Lemma ranking_prob_range fact K L (w : nat -> R) s k : (forall a, 0 < w a) -> (1 <= L)%nat -> slate_of fact K L s -> (k <= L)%nat -> 0 < ranking_prob fact K w (slots s) k <= 1.
Proof.
  intros Hw HL Hs Hk. destruct (C62_distribution fact K L w _ s Hw HL (choices_enumerate fact K L) Hs) as (_ & _ & Hd & H0).
  induction k as [|k IH]; [rewrite H0; lra|]. specialize (IH ltac:(lia)). specialize (Hd k ltac:(lia)). lra.
Qed.
Lemma sum_list_member {A} (l : list A) f a : In a l -> (forall b, In b l -> 0 <= f b) -> f a <= sum_list l f.
Proof.
  induction l as [|b l IH]; intros Hin Hf; [inversion Hin|]. rewrite sum_list_cons. pose proof (Hf b (or_introl eq_refl)) as Hb.
  assert (Hr : 0 <= sum_list l f) by (apply sum_list_nonneg; intros; apply Hf; right; assumption).
  destruct Hin as [->|Hin]; [lra|]. specialize (IH Hin ltac:(intros; apply Hf; right; assumption)). lra.
Qed.
Lemma sum_list_le {A} (l : list A) f g : (forall a, In a l -> f a <= g a) -> sum_list l f <= sum_list l g.
Proof.
  induction l as [|a l IH]; intros H; [unfold sum_list; simpl; lra|]. rewrite !sum_list_cons. pose proof (H a (or_introl eq_refl)).
  specialize (IH ltac:(intros; apply H; right; assumption)). lra.
Qed.
Lemma item_prob_range fact K L (w : nat -> R) all s j : (forall a, 0 < w a) -> (1 <= L)%nat -> enumerates all (slate_of fact K L) -> slate_of fact K L s -> 
  0 < item_prob fact K L w all j (nth j s 0%nat) <= 1.
Proof.
  intros Hw HL He Hs. unfold item_prob.
  assert (Hnn : forall t, In t all -> 0 <= (if Nat.eq_dec (nth j t 0%nat) (nth j s 0%nat) then ranking_prob fact K w (slots t) L else 0) <= ranking_prob fact K w (slots t) L).
  { intros t Ht. apply He in Ht. pose proof (ranking_prob_range fact K L w t L Hw HL Ht ltac:(lia)). destruct (Nat.eq_dec _ _); lra. }
  split.
  - apply Rlt_le_trans with (ranking_prob fact K w (slots s) L); [apply (ranking_prob_range fact K L w s L); auto|].
    pose proof (sum_list_member all (fun t => if Nat.eq_dec (nth j t 0%nat) (nth j s 0%nat) then ranking_prob fact K w (slots t) L else 0) s (proj2 (proj2 He s) Hs) ltac:(intros t Ht; apply Hnn, Ht)) as Hm.
    cbv beta in Hm. destruct (Nat.eq_dec (nth j s 0%nat) (nth j s 0%nat)); [exact Hm|congruence].
  - rewrite <- (proj1 (C62_distribution fact K L w all s Hw HL He Hs)). apply sum_list_le. intros t Ht. apply Hnn, Ht.
Qed.

(** The rows of the log as the estimators see them. *)
Definition flat_log (n L : nat) (r p pe : nat -> nat -> R) : S_Slate.slog :=
  S_Slate.mkSlog (n * L) (fun k => k / L)%nat (fun k => k mod L)%nat (fun k => r (k / L) (k mod L))%nat (fun k => p (k / L) (k mod L))%nat (fun k => pe (k / L) (k mod L))%nat.
Lemma flat_rows_ok n L r p pe : (1 <= n)%nat -> (1 <= L)%nat ->
  (forall i j, (i < n)%nat -> (j < L)%nat -> 0 < p i j <= 1) -> (forall i j, (i < n)%nat -> (j < L)%nat -> 0 < pe i j <= 1) -> S_Slate.rows_ok (flat_log n L r p pe).
Proof.
  intros Hn HL Hp Hpe. assert (Hk : forall k, (k < n * L)%nat -> (k / L < n)%nat /\ (k mod L < L)%nat).
  { intros k H. split; [apply Nat.div_lt_upper_bound; nia|apply Nat.mod_upper_bound; lia]. }
  constructor; cbn [flat_log S_Slate.sl_n S_Slate.sl_id S_Slate.sl_pos S_Slate.sl_p S_Slate.sl_pe].
  - nia.
  - intros i Hi. apply Hp; apply Hk, Hi.
  - intros i Hi. destruct (Hk i Hi). pose proof (Hpe (i / L)%nat (i mod L)%nat ltac:(assumption) ltac:(assumption)). lra.
  - intros i j Hi Hj E1 E2. rewrite (Nat.div_mod i L), (Nat.div_mod j L) by lia. congruence.
Qed.
Lemma flat_F n L (f : nat -> nat -> R) : map Fin (flat n L f) = tabF (n * L) (fun k => f (k / L) (k mod L))%nat.
Proof. unfold flat. rewrite concat_tab, map_tab. reflexivity. Qed.
Lemma flat_Z n L (f : nat -> nat -> nat) : flat n L (fun i j => Z.of_nat (f i j)) = tabZ (n * L) (fun k => f (k / L) (k mod L))%nat.
Proof. unfold flat. rewrite concat_tab. reflexivity. Qed.
Lemma flat_length {A} n L (f : nat -> nat -> A) : length (flat n L f) = (n * L)%nat.
Proof. unfold flat. rewrite concat_tab. apply tab_length. Qed.

Theorem C65_layout : forall d n free E lg W context base beh tn (us : nat -> nat -> R) item clip flip,
  setting d n free E lg W context base beh ->
  (forall i j, (i < n)%nat -> (j < sd_L d)%nat -> 0 <= us i j < 1) ->
  (item = true -> forall c, clip = Some c -> c <= 700) ->
  exists b, slate_obtain d (tabR2 (sd_K d) (sd_L d) free) base beh tn (Z.of_nat n) context item clip (tabR2 n (sd_L d) us) flip = Ok b /\
    sb_n b = n /\
    sb_slate b = flat n (sd_L d) (fun i _ => Z.of_nat i) /\ sb_position b = flat n (sd_L d) (fun _ j => Z.of_nat j) /\
    (forall i j, (i < n)%nat -> (j < sd_L d)%nat ->
       exists! k, (k < n * sd_L d)%nat /\ nth_error (sb_slate b) k = Some (Z.of_nat i) /\ nth_error (sb_position b) k = Some (Z.of_nat j)) /\
    length (sb_action b) = (n * sd_L d)%nat /\ length (sb_reward b) = (n * sd_L d)%nat /\ length (sb_expected b) = (n * sd_L d)%nat /\
    length (ps_joint (sb_ps b)) = (n * sd_L d)%nat /\ length (ps_cascade (sb_ps b)) = (n * sd_L d)%nat /\
    (* with the propensities of any evaluation policy the log passes the validation of the estimators *)
    forall elg, exists eps, obtain_pscore d (sb_action b) (tabR2 n (sd_K d) elg) item clip = Ok eps /\
      let valid check (p q : list R) := check (sb_slate b) (map Fin (sb_reward b)) (sb_position b) (map Fin p) (map Fin q) = Ok tt in
      valid check_sips_inputs (ps_joint (sb_ps b)) (ps_joint eps) /\
      valid check_rips_inputs (ps_cascade (sb_ps b)) (ps_cascade eps) /\
      match ps_item (sb_ps b), ps_item eps with
      | Some p, Some q => item = true /\ valid check_iips_inputs p q
      | None, None => item = false
      | _, _ => False
      end.
Proof.
  intros d n free E lg W context base beh tn us item clip flip Hset Hus Hclip.
  pose proof (choices_enumerate (sd_fact d) (sd_K d) (sd_L d)) as Hall. set (all := choices (sd_fact d) (seq 0 (sd_K d)) (sd_L d)) in *.
  destruct (obtain_batch d n free E lg W context base beh tn us all item clip flip Hset Hus Hall Hclip) as (s & ps & (Hs & Hcas & Hjoint & Hitem) & r & Eo & _).
  destruct Hset as [HL Hfit _ _ _ [Hn _] _ _ _]. eexists. split; [exact Eo|]. cbn [sb_n sb_slate sb_position sb_action sb_reward sb_expected sb_ps].
  assert (Hll : length (logged n s) = (n * sd_L d)%nat) by (apply concat_tab_length; intros i Hi; rewrite map_length; apply Hs, Hi).
  split; [reflexivity|]. split; [reflexivity|]. split; [reflexivity|]. split; [|split; [exact Hll|split; [apply flat_length|split; [apply flat_length|split; [rewrite Hjoint; apply flat_length|split; [rewrite Hcas; apply flat_length|]]]]]].
  - intros i j Hi Hj. exists (i * sd_L d + j)%nat. destruct (divmod_block i j (sd_L d) Hj) as [D M]. unfold flat. rewrite !concat_tab. split.
    + rewrite !nth_error_tab by nia. rewrite D, M. split; [nia|]. split; reflexivity.
    + intros k (Hk & E1 & E2). rewrite nth_error_tab in E1, E2 by exact Hk. injection E1 as E1. injection E2 as E2.
      rewrite (Nat.div_mod k (sd_L d)) by lia. apply Nat2Z.inj in E1, E2. rewrite E1, E2. lia.
  - intros elg.
    destruct (C62_pscores d n elg s all item clip Hn HL Hs Hall Hclip) as (eps & Eeps & Ecas & Ejoint & Eitem).
    exists eps. split; [exact Eeps|]. cbv zeta.
    assert (Hw : forall lg (a : nat), 0 < exp (lg a)) by (intros; apply exp_pos).
    assert (Hrange : forall (l : nat -> nat -> R) i k, (i < n)%nat -> (k <= sd_L d)%nat -> 0 < ranking_prob (sd_fact d) (sd_K d) (fun a => exp (l i a)) (slots (s i)) k <= 1).
    { intros l i k Hi Hk. apply (ranking_prob_range _ _ (sd_L d)); auto. }
    assert (Hids : flat n (sd_L d) (fun i _ => Z.of_nat i) = tabZ (n * sd_L d) (fun k => k / sd_L d)%nat) by apply flat_Z.
    assert (Hpos : flat n (sd_L d) (fun _ j => Z.of_nat j) = tabZ (n * sd_L d) (fun k => k mod sd_L d)%nat) by apply (flat_Z n (sd_L d) (fun _ j => j)).
    split; [|split].
    + rewrite Hjoint, Ejoint, Hids, Hpos, !flat_F.
      refine (check_sips_rows (flat_log n (sd_L d) r (fun i _ => ranking_prob (sd_fact d) (sd_K d) (fun a => exp (logits_of d lg i a)) (slots (s i)) (sd_L d))
                                                (fun i _ => ranking_prob (sd_fact d) (sd_K d) (fun a => exp (elg i a)) (slots (s i)) (sd_L d))) _ _).
      * apply flat_rows_ok; auto.
      * intros a b Ha Hb Eid. cbn in *. rewrite Eid. split; reflexivity.
    + rewrite Hcas, Ecas, Hids, Hpos, !flat_F.
      refine (check_rips_rows (flat_log n (sd_L d) r (fun i j => ranking_prob (sd_fact d) (sd_K d) (fun a => exp (logits_of d lg i a)) (slots (s i)) (S j))
                                                (fun i j => ranking_prob (sd_fact d) (sd_K d) (fun a => exp (elg i a)) (slots (s i)) (S j))) _ _).
      * apply flat_rows_ok; auto; intros i j Hi Hj; apply Hrange; auto.
      * intros a b Ha Hb Eid Hlt. cbn [flat_log S_Slate.sl_n S_Slate.sl_id S_Slate.sl_pos S_Slate.sl_p S_Slate.sl_pe] in *. rewrite Eid in *.
        assert (Hi : (b / sd_L d < n)%nat) by (apply Nat.div_lt_upper_bound; nia).
        assert (HbL : (b mod sd_L d < sd_L d)%nat) by (apply Nat.mod_upper_bound; lia).
        assert (Hmono : forall (l : nat -> nat -> R) k m, (k <= m <= sd_L d)%nat ->
                  ranking_prob (sd_fact d) (sd_K d) (fun x => exp (l (b / sd_L d)%nat x)) (slots (s (b / sd_L d)%nat)) m <=
                  ranking_prob (sd_fact d) (sd_K d) (fun x => exp (l (b / sd_L d)%nat x)) (slots (s (b / sd_L d)%nat)) k).
        { intros l k m Hkm. destruct (C62_distribution (sd_fact d) (sd_K d) (sd_L d) (fun x => exp (l (b / sd_L d)%nat x)) all (s (b / sd_L d)%nat) (Hw _) HL Hall (Hs _ Hi)) as (_ & _ & Hd & _).
          destruct Hkm as [Hkm HmL]. induction Hkm as [|m Hkm IH]; [lra|]. specialize (IH ltac:(lia)). specialize (Hd m ltac:(lia)). lra. }
        split; apply Hmono; lia.
    + rewrite Hitem, Eitem. destruct item; [|reflexivity]. split; [reflexivity|]. rewrite Hids, Hpos, !flat_F.
      refine (check_iips_rows (flat_log n (sd_L d) r (fun i j => if match beh with Some _ => false | None => true end then 1 / INR (sd_K d) else
                     item_prob (sd_fact d) (sd_K d) (sd_L d) (fun a => exp (if (Nat.eqb j 0 || sd_fact d)%bool then logits_of d lg i a else clipped clip (logits_of d lg i a))) all j (nth j (s i) 0%nat))
                   (fun i j => item_prob (sd_fact d) (sd_K d) (sd_L d) (fun a => exp (if (Nat.eqb j 0 || sd_fact d)%bool then elg i a else clipped clip (elg i a))) all j (nth j (s i) 0%nat))) _).
      apply flat_rows_ok; auto.
      * intros i j Hi Hj. destruct beh.
        -- apply item_prob_range; auto. intros a. apply exp_pos.
        -- assert (1 <= INR (sd_K d)) by (apply (le_INR 1); destruct (sd_fact d); lia). split; [apply Rdiv_lt_0_compat; lra|].
           apply (Rmult_le_reg_r (INR (sd_K d))); [lra|]. unfold Rdiv. rewrite Rmult_assoc, Rinv_l by lra. lra.
      * intros i j Hi Hj. apply item_prob_range; auto. intros a. apply exp_pos.
Qed.

(** ** Rewards of a log (C114) *)

Theorem C114_logged_rewards : forall d n free E lg W context base beh tn (us : nat -> nat -> R) item clip flip,
  setting d n free E lg W context base beh ->
  (forall i j, (i < n)%nat -> (j < sd_L d)%nat -> 0 <= us i j < 1) ->
  (item = true -> forall c, clip = Some c -> c <= 700) ->
  exists b s, slate_obtain d (tabR2 (sd_K d) (sd_L d) free) base beh tn (Z.of_nat n) context item clip (tabR2 n (sd_L d) us) flip = Ok b /\
    sb_action b = logged n s /\ (forall i, (i < n)%nat -> slate_of (sd_fact d) (sd_K d) (sd_L d) (s i)) /\
    let m i j := logged_mean d free E W s i j * nth j (sd_exam d) 0 in
    sb_expected b = flat n (sd_L d) m /\
    if sd_binary d
    then exists y, sb_reward b = flat n (sd_L d) (fun i j => if y i j : bool then 1 else 0) /\
         forall i, (i < n)%nat -> clicks (fun k => nth k (sd_att d) 0) (flip i) (sd_L d) (m i) (y i)
    else sb_reward b = flat n (sd_L d) (fun i j => tn (- m i j) (10 ^ 10 - m i j) (m i j) 1 i).
Proof.
  intros d n free E lg W context base beh tn us item clip flip Hset Hus Hclip.
  pose proof (choices_enumerate (sd_fact d) (sd_K d) (sd_L d)) as Hall.
  destruct (obtain_batch d n free E lg W context base beh tn us _ item clip flip Hset Hus Hall Hclip) as (s & ps & (Hs & _) & r & Eo & Hr).
  eexists. exists s. split; [exact Eo|]. cbn [sb_action sb_expected sb_reward]. split; [reflexivity|]. split; [exact Hs|]. cbv zeta. split; [reflexivity|].
  destruct (sd_binary d).
  - destruct Hr as (y & Hy & ->). exists y. split; [reflexivity|exact Hy].
  - rewrite Hr. reflexivity.
Qed.

(** Only the first ceil(n / len_list) contexts influence the rewards of n slates. *)
Theorem C114_later_contexts_ignored : forall d n free E E' lg W context base base' beh tn (us : nat -> nat -> R) item clip flip,
  setting d n free (Some E) lg W context (Some base) beh -> setting d n free (Some E') lg W context (Some base') beh ->
  (forall i j, (i < n)%nat -> (j < sd_L d)%nat -> 0 <= us i j < 1) ->
  (item = true -> forall c, clip = Some c -> c <= 700) ->
  (forall i a, (i * sd_L d < n)%nat -> E i a = E' i a) ->
  slate_obtain d (tabR2 (sd_K d) (sd_L d) free) (Some base) beh tn (Z.of_nat n) context item clip (tabR2 n (sd_L d) us) flip =
  slate_obtain d (tabR2 (sd_K d) (sd_L d) free) (Some base') beh tn (Z.of_nat n) context item clip (tabR2 n (sd_L d) us) flip.
Proof.
  intros d n free E E' lg W context base base' beh tn us item clip flip Hset Hset' Hus Hclip HEE.
  assert (Hex : forall s, (forall i, (i < n)%nat -> slate_of (sd_fact d) (sd_K d) (sd_L d) (s i)) ->
     interaction_reward (base context) (length context) (sd_K d) (logged n s) (sd_binary d) (sd_structure d) (sd_W d) (sd_L d) false =
     interaction_reward (base' context) (length context) (sd_K d) (logged n s) (sd_binary d) (sd_structure d) (sd_W d) (sd_L d) false).
  { destruct Hset as [HL _ _ _ HW [Hn Hc] Hb _ _], Hset' as [_ _ _ _ _ _ Hb' _ _]. intros s Hs. rewrite Hb, Hb', Hc, HW.
    assert (Hs' : forall i, (i < n)%nat -> length (s i) = sd_L d /\ forall a, In a (s i) -> (a < sd_K d)%nat) by (intros i Hi; destruct (Hs i Hi) as (A & B & _); auto).
    rewrite !interaction_logged by assumption. f_equal. unfold tabR2. apply tab_ext. intros i Hi. apply tab_ext. intros j Hj.
    assert (Hg : forall a, E (i / sd_L d)%nat a = E' (i / sd_L d)%nat a).
    { intros a. apply HEE. pose proof (Nat.mul_div_le i (sd_L d) ltac:(lia)). nia. }
    unfold slot_mean, slot_total. destruct (sd_binary d).
    - do 4 f_equal. f_equal; [rewrite Hg; reflexivity|]. apply sumn_ext. intros p Hp. destruct (influences _ j p); [|reflexivity].
      destruct (sd_structure d); rewrite ?Hg; reflexivity.
    - do 2 f_equal; [apply Hg|]. apply sumn_ext. intros p Hp. destruct (influences _ j p); [|reflexivity].
      destruct (sd_structure d); rewrite ?Hg; reflexivity. }
  pose proof (choices_enumerate (sd_fact d) (sd_K d) (sd_L d)) as Hall.
  pose proof Hset as [HL Hfit _ _ _ [Hn Hc] _ Hbeh _].
  destruct (C62_sampling d (match beh with None => true | Some _ => false end) n (logits_of d lg) us _ item clip HL Hfit Hus Hall Hclip) as (s & ps & Es & (Hs & _) & _).
  unfold slate_obtain. rewrite Nat2Z.id.
  assert (Elg : match beh with None => repeat (repeat (1 / INR (sd_K d)) (sd_K d)) n | Some f => f context end = tabR2 n (sd_K d) (logits_of d lg)).
  { destruct beh, lg; try contradiction; [exact Hbeh|]. unfold tabR2, logits_of. rewrite repeat_is_tab. apply tab_ext. intros. apply repeat_is_tab. }
  cbv zeta. rewrite Elg, Es. cbn [bind fst snd]. rewrite Hex by exact Hs. reflexivity.
Qed.

(** With more than 128 actions some actions earn the reward of another one. *)
Theorem C114_action_wraps : forall K a, (a < K)%nat ->
  ((K <= 128)%nat -> stored K a = a) /\
  ((128 <= a < 256)%nat -> stored K a = (K + a - 256)%nat /\ (stored K a < K)%nat) /\
  ((128 <= a < 256)%nat -> (K <> 256)%nat -> stored K a <> a) /\
  ((256 <= a)%nat -> stored K a <> a \/ (a = K + a mod 256 - 256)%nat).
Proof.
  intros K a Ha. unfold stored. split; [|split; [|split]].
  - intros HK. rewrite Nat.mod_small by lia. rewrite (proj2 (Nat.ltb_lt _ _)) by lia. reflexivity.
  - intros H. rewrite Nat.mod_small by lia. rewrite (proj2 (Nat.ltb_ge _ _)) by lia. lia.
  - intros H HK. rewrite Nat.mod_small by lia. rewrite (proj2 (Nat.ltb_ge _ _)) by lia. lia.
  - intros H. cbv zeta. destruct (Nat.ltb_spec (a mod 256) 128) as [Hl|Hl]; [left; lia|].
    destruct (Nat.eq_dec a (K + a mod 256 - 256)) as [E|E]; [right; exact E|left; congruence].
Qed.

(** Continuous rewards: every column is drawn with a freshly seeded generator, so two slots of a slate with equal means get equal rewards. *)
Theorem C114_continuous_shared_noise : forall d tn flip n m i j k, sd_binary d = false -> length (sd_exam d) = sd_L d ->
  (i < n)%nat -> (j < sd_L d)%nat -> (k < sd_L d)%nat -> m i j * nth j (sd_exam d) 0 = m i k * nth k (sd_exam d) 0 ->
  exists e r, sample_slate_reward d tn flip (tabR2 n (sd_L d) m) = Ok (e, r) /\ nth j (nth i r []) 0 = nth k (nth i r []) 0.
Proof.
  intros d tn flip n m i j k Hb Hel Hi Hj Hk E. unfold sample_slate_reward. rewrite Hb. cbv zeta. eexists. eexists. split; [reflexivity|].
  unfold tabR2. rewrite map_tab, tab_length. replace (seq 0 n) with (tab n (fun i => i)) by (unfold tab; apply map_id).
  rewrite combine_tab, map_tab, nth_tab by exact Hi. cbn [fst snd]. unfold examined. rewrite (tab_eta (sd_exam d) 0) at 1 2. rewrite Hel, combine_tab, !map_tab.
  rewrite !nth_tab by assumption. cbn [fst snd]. rewrite E. reflexivity.
Qed.

(** ** Click probabilities and expected clicks (C115) *)

(** The probability of the click pattern [y] (independent draws): product over the slots of the probability of what happened. *)
Definition click_prob (att x : nat -> R) (y : list bool) (j : nat) : R := prodn j (fun i => if nth i y false then att (S i) else 1) * x j.
Definition pattern_prob (att x : nat -> R) (L : nat) (y : list bool) : R :=
  prodn L (fun j => if nth j y false then click_prob att x y j else 1 - click_prob att x y j).
Definition total (L : nat) (y : list bool) : R := sumn L (fun j => if nth j y false then 1 else 0).
Fixpoint patterns (L : nat) : list (list bool) := match L with O => [[]] | S L => flat_map (fun b => map (cons b) (patterns L)) [true; false] end.

Lemma patterns_all L y : In y (patterns L) <-> length y = L.
Proof.
  revert y. induction L as [|L IH]; intros y; cbn [patterns].
  - split; [intros [<-|[]]; reflexivity|]. destruct y; [left; reflexivity|discriminate].
  - rewrite in_flat_map. split.
    + intros (b & _ & H). apply in_map_iff in H as (z & <- & H). apply IH in H. simpl. lia.
    + destruct y as [|b y]; [discriminate|]. intros H. exists b. split; [destruct b; simpl; auto|]. apply in_map, IH. simpl in H. lia.
Qed.

Lemma patterns_sum L (f : list bool -> R) : sum_list (patterns (S L)) f = sum_list (patterns L) (fun y => f (true :: y)) + sum_list (patterns L) (fun y => f (false :: y)).
Proof. cbn [patterns flat_map]. rewrite app_nil_r, sum_list_app. unfold sum_list. rewrite !map_map. reflexivity. Qed.

Lemma pattern_sums (att : nat -> R) : forall L pos D (x : nat -> R),
  let c y j := D * prodn j (fun i => if nth i y false then att (pos + S i)%nat else 1) * x j in
  let p y := prodn L (fun j => if nth j y false then c y j else 1 - c y j) in
  sum_list (patterns L) p = 1 /\ sum_list (patterns L) (fun y => p y * total L y) = click_total att pos D (tab L x).
Proof.
  induction L as [|L IH]; intros pos D x; cbv zeta.
  - unfold sum_list, total. simpl. split; ring.
  - set (D' := fun b : bool => D * (if b then att (S pos) else 1)).
    assert (G : forall (b : bool) y, prodn (S L) (fun j => if nth j (b :: y) false then D * prodn j (fun i => if nth i (b :: y) false then att (pos + S i)%nat else 1) * x j
                                               else 1 - D * prodn j (fun i => if nth i (b :: y) false then att (pos + S i)%nat else 1) * x j) =
             (if b then D * x 0%nat else 1 - D * x 0%nat) *
             prodn L (fun j => if nth j y false then D' b * prodn j (fun i => if nth i y false then att (S pos + S i)%nat else 1) * x (S j)
                               else 1 - D' b * prodn j (fun i => if nth i y false then att (S pos + S i)%nat else 1) * x (S j))).
    { intros b y. rewrite prodn_first. apply f_equal2; [cbn [nth prodn]; destruct b; ring|]. apply prodn_ext. intros j Hj. cbv beta. rewrite prodn_first. cbn [nth].
      replace (pos + 1)%nat with (S pos) by lia. unfold D'. rewrite (prodn_ext j (fun i => if nth i y false then att (S pos + S i)%nat else 1) (fun k => if nth k y false then att (pos + S (S k))%nat else 1)).
      - destruct (nth j y false); ring.
      - intros i _. replace (S pos + S i)%nat with (pos + S (S i))%nat by lia. reflexivity. }
    assert (T : forall b y, total (S L) (b :: y) = (if b : bool then 1 else 0) + total L y) by (intros b y; unfold total; rewrite sumn_S_first; reflexivity).
    rewrite !patterns_sum. destruct (IH (S pos) (D' true) (fun k => x (S k))) as [T1 T2]. destruct (IH (S pos) (D' false) (fun k => x (S k))) as [F1 F2]. cbv zeta in *. split.
    + rewrite (sum_list_ext _ _ _ (fun y _ => G true y)), (sum_list_ext _ _ _ (fun y _ => G false y)). rewrite !sum_list_scal, T1, F1. ring.
    + rewrite tab_S_first. cbn [click_total].
      set (Q := fun (b : bool) y => prodn L (fun j => if nth j y false then D' b * prodn j (fun i => if nth i y false then att (S pos + S i)%nat else 1) * x (S j)
                               else 1 - D' b * prodn j (fun i => if nth i y false then att (S pos + S i)%nat else 1) * x (S j))) in *.
      match goal with |- ?A + ?B = _ =>
        assert (EA : A = (D * x 0%nat) * (1 + click_total att (S pos) (D' true) (tab L (fun k => x (S k)))));
          [transitivity ((D * x 0%nat) * (sum_list (patterns L) (Q true) + sum_list (patterns L) (fun y => Q true y * total L y))); [|unfold Q; rewrite T1, T2; reflexivity];
           rewrite <- sum_list_plus, <- sum_list_scal; apply sum_list_ext; intros y _; cbv beta; rewrite (G true y), T; fold (Q true y); ring|];
        assert (EB : B = (1 - D * x 0%nat) * click_total att (S pos) (D' false) (tab L (fun k => x (S k))));
          [transitivity ((1 - D * x 0%nat) * sum_list (patterns L) (fun y => Q false y * total L y)); [|unfold Q; rewrite F2; reflexivity]; rewrite <- sum_list_scal; apply sum_list_ext; intros y _; cbv beta; rewrite (G false y), T; fold (Q false y); ring|];
        rewrite EA, EB end.
      unfold D'. rewrite Rmult_1_r. ring.
Qed.

Theorem C115_click_law : forall (att x : nat -> R) L,
  (* the draws of a slate produce the pattern y iff slot by slot they say what y says, at the click probability given the clicks of y *)
  (forall flip z (y : list bool), clicks att flip L x z -> length y = L ->
     ((forall j, (j < L)%nat -> z j = nth j y false) <-> forall j, (j < L)%nat -> flip j (click_prob att x y j) = nth j y false)) /\
  (forall y, In y (patterns L) <-> length y = L) /\
  (* so, with independent draws, y has the probability pattern_prob, and the expected number of clicks is click_total *)
  sum_list (patterns L) (pattern_prob att x L) = 1 /\
  sum_list (patterns L) (fun y => pattern_prob att x L y * total L y) = click_total att 0 1 (tab L x).
Proof.
  intros att x L. split; [|split; [apply patterns_all|]].
  - intros flip z y Hz Hl. split.
    + intros E j Hj. rewrite <- (E j Hj), (Hz j Hj). unfold click_prob. do 2 f_equal. apply prodn_ext. intros i Hi. rewrite E by lia. reflexivity.
    + intros E j. induction j as [j IH] using lt_wf_ind. intros Hj. rewrite <- E by exact Hj. rewrite Hz by exact Hj. unfold click_prob. do 2 f_equal.
      apply prodn_ext. intros i Hi. rewrite IH by lia. reflexivity.
  - destruct (pattern_sums att L 0 1 x) as [H1 H2]. cbv zeta in *.
    assert (E : forall y, prodn L (fun j => if nth j y false then 1 * prodn j (fun i => if nth i y false then att (0 + S i)%nat else 1) * x j
                                     else 1 - 1 * prodn j (fun i => if nth i y false then att (0 + S i)%nat else 1) * x j) = pattern_prob att x L y).
    { intros y. unfold pattern_prob, click_prob. apply prodn_ext. intros j Hj. rewrite !Rmult_1_l. reflexivity. }
    split.
    + rewrite <- H1. apply sum_list_ext. intros y _. symmetry. apply E.
    + rewrite <- H2. apply sum_list_ext. intros y _. rewrite E. reflexivity.
Qed.

(** Discounting by mean clicks instead, as [calc_ground_truth_policy_value] does. *)
Definition mean_clicks (att : nat -> R) (L : nat) (x y : nat -> R) : Prop :=
  forall j, (j < L)%nat -> y j = prodn j (fun i => 1 - y i * (1 - att (S i))) * x j.

Lemma discount_loop_means (att : list R) : forall m pos disc prev x,
  exists y, discount_loop att pos disc prev (tab m x) = tab m y /\
    forall k, (k < m)%nat -> y k = disc * (1 - prev * (1 - nth pos att 0)) * prodn k (fun i => 1 - y i * (1 - nth (pos + S i) att 0)) * x k.
Proof.
  induction m as [|m IH]; intros pos disc prev x; [exists (fun _ => 0); split; [reflexivity|intros; lia]|].
  rewrite tab_S_first. cbn [discount_loop]. set (D := disc * (prev * nth pos att 0 + (1 - prev))).
  assert (HD : D = disc * (1 - prev * (1 - nth pos att 0))) by (unfold D; ring).
  destruct (IH (S pos) D (D * x 0%nat) (fun k => x (S k))) as (y & E & Hy). rewrite E.
  exists (fun k => match k with O => D * x 0%nat | S k => y k end). split; [rewrite tab_S_first; reflexivity|].
  intros k Hk. destruct k as [|k].
  - cbn [prodn]. rewrite HD. ring.
  - rewrite Hy by lia. rewrite prodn_first. cbv beta. rewrite <- HD. replace (pos + 1)%nat with (S pos) by lia.
    rewrite (prodn_ext k (fun i => 1 - y i * (1 - nth (S pos + S i) att 0)) (fun i => 1 - y i * (1 - nth (pos + S (S i)) att 0))); [ring|].
    intros i _. replace (S pos + S i)%nat with (pos + S (S i))%nat by lia. reflexivity.
Qed.
Lemma discount_means att L x : exists y, discount_loop att 0 1 0 (tab L x) = tab L y /\ mean_clicks (fun k => nth k att 0) L x y.
Proof.
  destruct (discount_loop_means att L 0 1 0 x) as (y & E & Hy). exists y. split; [exact E|]. intros j Hj. rewrite Hy by exact Hj. cbn [Nat.add]. ring.
Qed.

Lemma click_total_full att : forall L pos x, (forall k, (pos < k < pos + L)%nat -> att k = 1) -> click_total att pos 1 (tab L x) = sumn L x.
Proof.
  induction L as [|L IH]; intros pos x H; [reflexivity|]. rewrite tab_S_first, sumn_S_first. cbn [click_total]. destruct L as [|L].
  - cbn. ring.
  - rewrite (H (S pos)) by lia. rewrite Rmult_1_r, IH by (intros; apply H; lia). ring.
Qed.

(** Without a click model, and for two slots, this gives the expected clicks; from the third slot on it counts too much. *)
Theorem C115_mean_discounting : forall att x y L, mean_clicks att L x y ->
  ((forall k, (0 < k < L)%nat -> att k = 1) -> sumn L y = click_total att 0 1 (tab L x) /\ sumn L y = sumn L x) /\
  ((L <= 2)%nat -> sumn L y = click_total att 0 1 (tab L x)) /\
  (L = 3%nat -> sumn L y = click_total att 0 1 (tab L x) + x 2%nat * (1 - att 2%nat) * x 1%nat * (1 - att 1%nat) ^ 2 * (x 0%nat * (1 - x 0%nat))).
Proof.
  intros att x y L H. split; [|split].
  - intros Ha. assert (E : sumn L y = sumn L x).
    { apply sumn_ext. intros j Hj. rewrite H by exact Hj. rewrite (prodn_ext j _ (fun _ => 1)); [rewrite prodn_const, pow1; ring|].
      intros i Hi. rewrite Ha by lia. ring. }
    split; [|exact E]. rewrite E. symmetry. apply click_total_full. exact Ha.
  - intros HL. destruct L as [|[|[|L]]]; [reflexivity| | |lia].
    + cbn [sumn]. rewrite (H 0%nat) by lia. cbn. ring.
    + cbn [sumn]. rewrite (H 1%nat) by lia. cbn [prodn]. rewrite (H 0%nat) by lia. cbn. ring.
  - intros ->. cbn [sumn]. rewrite (H 2%nat) by lia. cbn [prodn]. rewrite (H 1%nat) by lia. cbn [prodn]. rewrite (H 0%nat) by lia. cbn. ring.
Qed.

(** ** The policy value computed by enumeration (C116) *)

Lemma softmax_prob K lg a : (a < K)%nat -> nth a (softmax_row (tab K lg)) 0 = wt (tab K lg) a / sum_list (seq 0 K) (wt (tab K lg)).
Proof.
  intros Ha. rewrite softmax_row_nth by (rewrite tab_length; exact Ha). rewrite nth_tab by exact Ha. rewrite map_tab, Rsum_tab, wt_tab by exact Ha. f_equal.
  rewrite sum_list_seq. apply sumn_ext. intros b Hb. symmetry. apply wt_tab, Hb.
Qed.
Lemma fact_prob K lg s : forall acc, (forall a, In a s -> (a < K)%nat) ->
  fold_left (fun acc a => acc * nth a (softmax_row (tab K lg)) 0) s acc = acc * pl true (wt (tab K lg)) (seq 0 K) s.
Proof.
  induction s as [|a s IH]; intros acc H; cbn [fold_left pl]; [ring|]. rewrite IH by (intros; apply H; right; assumption).
  rewrite softmax_prob by (apply H; left; reflexivity). cbn [after]. ring.
Qed.
Lemma slate_prob (fact : bool) K L lg s : slate_of fact K L s ->
  (if fact then fold_left (fun acc a => acc * nth a (softmax_row (tab K lg)) 0) s 1 else calc_logit (tab K lg) (seq 0 K) 1 s) =
  ranking_prob fact K (fun a => exp (lg a)) (slots s) L.
Proof.
  intros Hs. rewrite <- (pl_tab fact K L lg s L Hs ltac:(lia)). destruct Hs as (Hl & HK & Hnd) eqn:E. rewrite <- Hl, firstn_all. destruct fact.
  - rewrite fact_prob by exact HK. ring.
  - rewrite calc_logit_pl; [ring|]. apply slate_playable with (L := L). exact Hs.
Qed.

(** Batches of [b] rounds. *)
Lemma firstn_tab_min {A} n b (f : nat -> A) : firstn b (tab n f) = tab (Nat.min b n) f.
Proof.
  destruct (Nat.le_ge_cases b n); [rewrite firstn_tab, Nat.min_l by lia; reflexivity|].
  rewrite firstn_all2 by (rewrite tab_length; lia). rewrite Nat.min_r by lia. reflexivity.
Qed.
Lemma chunks_tab {A} b : forall k n (c : nat -> A), chunks k b (tab n c) = tab k (fun q => tab (Nat.min b (n - q * b)) (fun i => c (q * b + i)%nat)).
Proof.
  induction k as [|k IH]; intros n c; [reflexivity|]. cbn [chunks]. rewrite tab_S_first, firstn_tab_min, skipn_tab, IH. cbn [Nat.mul Nat.add]. rewrite Nat.sub_0_r. f_equal.
  apply tab_ext. intros q Hq. replace (n - b - q * b)%nat with (n - (b + q * b))%nat by lia. apply tab_ext. intros i Hi. f_equal. lia.
Qed.
Lemma sumn_batches b : forall k n h, (n <= k * b)%nat -> sumn k (fun q => sumn (Nat.min b (n - q * b)) (fun i => h (q * b + i)%nat)) = sumn n h.
Proof.
  induction k as [|k IH]; intros n h H; [replace n with 0%nat by lia; reflexivity|]. cbn [sumn].
  destruct (Nat.le_ge_cases n (k * b)) as [Hle|Hge].
  - rewrite IH by exact Hle. replace (n - k * b)%nat with 0%nat by lia. rewrite Nat.min_0_r. cbn [sumn]. ring.
  - transitivity (sumn (k * b + (n - k * b)) h); [|f_equal; lia]. rewrite sumn_app. f_equal.
    + rewrite <- (IH (k * b)%nat h ltac:(lia)). apply sumn_ext. intros q Hq. replace (Nat.min b (n - q * b)) with (Nat.min b (k * b - q * b)) by nia. reflexivity.
    + rewrite Nat.min_r by lia. reflexivity.
Qed.

(** The expected total reward that the enumeration assigns to a slate with reward means [x] (examination included). *)
Definition counted (binary : bool) (att : nat -> R) (L : nat) (x : nat -> R) (v : R) : Prop :=
  if binary then exists y, mean_clicks att L x y /\ v = sumn L y else v = sumn L x.
(** The context from which the value of round [i] is computed, when [b] rounds are treated together. *)
Definition used_context (b L i : nat) : nat := ((i / b) * b + (i mod b) / L)%nat.

Lemma weighted_sum {A} (all : list A) nb (P : nat -> A -> R) (v : nat -> A -> R) (dflt : A) :
  Rsum (map (fun pv => fst pv * snd pv) (combine (concat (tab nb (fun i => map (P i) all))) (tab (nb * length all) (fun r => v (r / length all)%nat (nth (r mod length all) all dflt))))) =
  sumn nb (fun i => sum_list all (fun s => P i s * v i s)).
Proof.
  set (m := length all).
  assert (E : concat (tab nb (fun i => map (P i) all)) = tab (nb * m) (fun r => P (r / m)%nat (nth (r mod m) all dflt))).
  { transitivity (concat (tab nb (fun i => tab m (fun j => P i (nth j all dflt))))); [|apply (concat_tab nb m (fun i j => P i (nth j all dflt)))].
    f_equal. apply tab_ext. intros i Hi. rewrite (tab_eta all dflt) at 1. rewrite map_tab. reflexivity. }
  rewrite E, combine_tab, map_tab, Rsum_tab. cbn [fst snd]. rewrite sumn_block. apply sumn_ext. intros i Hi.
  transitivity (sumn m (fun j => P i (nth j all dflt) * v i (nth j all dflt))).
  - apply sumn_ext. intros k Hk. destruct (divmod_block i k m Hk) as [-> ->]. reflexivity.
  - transitivity (sum_list (tab m (fun j => nth j all dflt)) (fun s => P i s * v i s)); [|unfold m; rewrite <- (tab_eta all dflt); reflexivity].
    unfold sum_list. rewrite map_tab, Rsum_tab. reflexivity.
Qed.

Lemma counted_value (binary : bool) att L x v : counted binary (fun k => nth k att 0) L x v ->
  v = Rsum (if binary then discount_loop att 0 1 0 (tab L x) else tab L x).
Proof.
  unfold counted. destruct binary; intros H; [|rewrite Rsum_tab; exact H]. destruct H as (y & Hy & ->).
  destruct (discount_means att L x) as (z & -> & Hz). rewrite Rsum_tab. apply sumn_ext.
  enough (G : forall k j, (j < k)%nat -> (j < L)%nat -> y j = z j) by (intros j Hj; apply (G (S j)); [lia|exact Hj]).
  induction k as [|k IH]; intros j Hk Hj; [lia|]. rewrite (Hy j Hj), (Hz j Hj). f_equal. apply prodn_ext. intros i Hi. rewrite (IH i) by lia. reflexivity.
Qed.
Lemma counted_exists (binary : bool) att L x : counted binary (fun k => nth k att 0) L x (Rsum (if binary then discount_loop att 0 1 0 (tab L x) else tab L x)).
Proof.
  unfold counted. destruct binary; [|apply Rsum_tab]. destruct (discount_means att L x) as (z & -> & Hz). exists z. split; [exact Hz|apply Rsum_tab].
Qed.

Lemma map_repeat {A B} (f : A -> B) x n : map f (repeat x n) = repeat (f x) n.
Proof. induction n as [|n IH]; [reflexivity|]. cbn [repeat map]. rewrite IH. reflexivity. Qed.
Lemma concat_repeat_nth {A} (all : list A) n r d : (r < n * length all)%nat -> nth r (concat (repeat all n)) d = nth (r mod length all) all d.
Proof.
  intros H. destruct (Nat.eq_dec (length all) 0) as [E|E]; [lia|].
  assert (X : concat (repeat all n) = tab (n * length all) (fun r => nth (r mod length all) all d)).
  { rewrite repeat_is_tab, <- (concat_tab n (length all) (fun _ j => nth j all d)). f_equal. apply tab_ext. intros i Hi. apply tab_eta. }
  rewrite X, nth_tab by exact H. reflexivity.
Qed.
Lemma concat_repeat_length {A} (all : list A) n : length (concat (repeat all n)) = (n * length all)%nat.
Proof. induction n as [|n IH]; [reflexivity|]. cbn [repeat concat]. rewrite app_length, IH. reflexivity. Qed.
Lemma concat_repeat_concat {A} (all : list (list A)) n : concat (concat (repeat all n)) = concat (repeat (concat all) n).
Proof. induction n as [|n IH]; [reflexivity|]. cbn [repeat concat]. rewrite concat_app, IH. reflexivity. Qed.
Lemma rows_length {A} (all : list (list A)) L : (forall s, In s all -> length s = L) -> length (concat all) = (length all * L)%nat.
Proof. induction all as [|a all IH]; intros H; [reflexivity|]. cbn [concat length]. rewrite app_length, (H a), IH by (intros; try apply H; simpl; auto). reflexivity. Qed.

Lemma enumerated_rewards n K L st W E binary all : (1 <= n)%nat -> (1 <= L)%nat -> (K <= 128)%nat -> all <> [] -> (forall s, In s all -> length s = L /\ forall a, In a s -> (a < K)%nat) ->
  interaction_reward (tabR2 n K E) n K (map (fun a => int8 (Z.of_nat a)) (concat all)) binary st (weights st K L W) L true =
  Ok (tabR2 (n * length all) L (fun r => slot_mean binary st W (E ((r / length all) / L)%nat) L (slots (nth (r mod length all) all [])))).
Proof.
  intros Hn HL HK Hne Hall. assert (Hm : (1 <= length all)%nat) by (destruct all; [congruence|simpl; lia]).
  rewrite (map_ext_in _ Z.of_nat) by (intros a Ha; apply int8_small; apply in_concat in Ha as (s & Hs & Ha); apply Hall in Hs as [_ Hs]; specialize (Hs a Ha); lia).
  rewrite (interaction_rows n K L st W E binary (concat (repeat all n))).
  - rewrite concat_repeat_length. f_equal. unfold tabR2. apply tab_ext. intros r Hr. rewrite concat_repeat_nth by exact Hr.
    replace (n * length all * L / n)%nat with (length all * L)%nat by (rewrite <- Nat.mul_assoc, (Nat.mul_comm n), Nat.div_mul by lia; reflexivity).
    rewrite Nat.div_div by lia. replace (stored_row K (nth (r mod length all) all [])) with (nth (r mod length all) all []); [reflexivity|].
    unfold stored_row. rewrite <- (map_id (nth _ _ _)) at 1. apply map_ext_in. intros a Ha. symmetry. apply stored_small.
    enough (a < K)%nat by lia. apply (Hall (nth (r mod length all) all [])); [apply nth_In, Nat.mod_upper_bound; lia|exact Ha].
  - exact Hn.
  - exact HL.
  - intros row Hin. apply in_concat in Hin as (l & Hl & Hin). apply repeat_spec in Hl. subst l. apply Hall, Hin.
  - rewrite concat_repeat_concat, (concat_map Z.of_nat (repeat (concat all) n)), map_repeat. reflexivity.
  - rewrite map_length, (rows_length all L) by (intros s Hs; apply Hall, Hs). apply Nat.mod_mul. lia.
  - rewrite concat_repeat_length. intros r Hr. rewrite <- Nat.mul_assoc, (Nat.mul_comm n), Nat.div_mul by lia. apply Nat.div_lt_upper_bound; [nia|]. nia.
Qed.

Lemma examined_tab exam L x : length exam = L -> examined exam (tab L x) = tab L (fun j => x j * nth j exam 0).
Proof. intros H. unfold examined. rewrite (tab_eta exam 0) at 1. rewrite H, combine_tab, map_tab. reflexivity. Qed.

Lemma enumerated_batch d nb E W all (P V : nat -> list nat -> R) : (1 <= nb)%nat -> (1 <= sd_L d)%nat -> (sd_K d <= 128)%nat -> all <> [] ->
  (forall s, In s all -> length s = sd_L d /\ forall a, In a s -> (a < sd_K d)%nat) -> length (sd_exam d) = sd_L d -> sd_W d = weights (sd_structure d) (sd_K d) (sd_L d) W ->
  (forall i s, (i < nb)%nat -> In s all -> counted (sd_binary d) (fun k => nth k (sd_att d) 0) (sd_L d)
      (fun j => slot_mean (sd_binary d) (sd_structure d) W (E (i / sd_L d)%nat) (sd_L d) (slots s) j * nth j (sd_exam d) 0) (V i s)) ->
  (rewards <- interaction_reward (tabR2 nb (sd_K d) E) nb (sd_K d) (map (fun a => int8 (Z.of_nat a)) (concat all)) (sd_binary d) (sd_structure d) (sd_W d) (sd_L d) true ;;
   let e := map (examined (sd_exam d)) rewards in
   let e := if sd_binary d then map (discount_loop (sd_att d) 0 1 0) e else e in
   Ok (Rsum (map (fun pv => fst pv * snd pv) (combine (concat (tab nb (fun i => map (P i) all))) (map Rsum e))))) =
  Ok (sumn nb (fun i => sum_list all (fun s => P i s * V i s))).
Proof.
  intros Hnb HL HK Hne Hall Hex HW HV. assert (Hm : (1 <= length all)%nat) by (destruct all; [congruence|simpl; lia]).
  rewrite HW, enumerated_rewards by assumption. cbn [bind]. cbv zeta. f_equal. rewrite <- (weighted_sum all nb P V []). do 3 f_equal.
  unfold tabR2. rewrite map_tab.
  transitivity (tab (nb * length all) (fun r => Rsum (if sd_binary d then discount_loop (sd_att d) 0 1 0 (tab (sd_L d)
     (fun j => slot_mean (sd_binary d) (sd_structure d) W (E (r / length all / sd_L d)%nat) (sd_L d) (slots (nth (r mod length all) all [])) j * nth j (sd_exam d) 0))
     else tab (sd_L d) (fun j => slot_mean (sd_binary d) (sd_structure d) W (E (r / length all / sd_L d)%nat) (sd_L d) (slots (nth (r mod length all) all [])) j * nth j (sd_exam d) 0)))).
  - destruct (sd_binary d); rewrite ?map_tab; apply tab_ext; intros r Hr; rewrite examined_tab by exact Hex; reflexivity.
  - apply tab_ext. intros r Hr. symmetry. apply (counted_value (sd_binary d)). apply HV; [apply Nat.div_lt_upper_bound; lia|apply nth_In, Nat.mod_upper_bound; lia].
Qed.

Lemma batch_rounds_pos n m L : (1 <= n)%nat -> (1 <= m)%nat -> (1 <= L)%nat -> (1 <= batch_rounds n m L <= n)%nat.
Proof.
  intros Hn Hm HL. unfold batch_rounds.
  set (q := ((Z.of_nat n * Z.of_nat m * Z.of_nat L - 1) / 10 ^ 7 + 1)%Z).
  assert (Hq : (1 <= q)%Z). { enough (0 <= (Z.of_nat n * Z.of_nat m * Z.of_nat L - 1) / 10 ^ 7)%Z by (unfold q; lia). apply Z.div_pos; [nia|reflexivity]. }
  assert (H1 : (0 <= (Z.of_nat n - 1) / q)%Z) by (apply Z.div_pos; lia).
  assert (H2 : ((Z.of_nat n - 1) / q <= Z.of_nat n - 1)%Z) by (apply Z.div_le_upper_bound; nia). lia.
Qed.
Lemma batch_rounds_all n m L : (1 <= n)%nat -> (1 <= m)%nat -> (1 <= L)%nat -> (Z.of_nat n * Z.of_nat m * Z.of_nat L <= 10 ^ 7)%Z -> batch_rounds n m L = n.
Proof.
  intros Hn Hm HL H. unfold batch_rounds. change (10 ^ 7)%Z with 10000000%Z in *. rewrite (Z.div_small (Z.of_nat n * Z.of_nat m * Z.of_nat L - 1)); [|assert (1 <= Z.of_nat n * Z.of_nat m)%Z by nia; assert (1 * 1 <= Z.of_nat n * Z.of_nat m * Z.of_nat L)%Z by (apply Z.mul_le_mono_nonneg; lia); lia]. cbn [Z.add]. rewrite Z.div_1_r. lia.
Qed.

(** The data of a policy evaluation by enumeration: base rewards [E i a] computed row by row from the contexts [c i], weights [W], policy logits [lg]. *)
Record evaluation (d : slate_ds) (n : nat) (E : nat -> nat -> R) (W : nat -> nat -> R) (c : nat -> list R) (g : list R -> list R) (all : list (list nat)) : Prop := {
  ev_L : (1 <= sd_L d)%nat;
  ev_fit : if sd_fact d then (1 <= sd_K d)%nat else (sd_L d <= sd_K d)%nat;
  ev_K : (sd_K d <= 128)%nat;
  ev_exam : length (sd_exam d) = sd_L d;
  ev_W : sd_W d = weights (sd_structure d) (sd_K d) (sd_L d) W;
  ev_n : (1 <= n)%nat;
  ev_context : length (c 0%nat) = sd_dim d;
  ev_base : forall i, (i < n)%nat -> g (c i) = tab (sd_K d) (E i);
  ev_all : enumerates all (slate_of (sd_fact d) (sd_K d) (sd_L d)) }.

Lemma slate_exists (fact : bool) K L : (if fact then (1 <= K)%nat else (L <= K)%nat) -> (1 <= L)%nat -> choices fact (seq 0 K) L <> [].
Proof.
  intros Hfit HL. pose proof (choices_enumerate fact K L) as [_ H]. intros E. rewrite E in H.
  assert (X : slate_of fact K L (if fact then repeat 0%nat L else seq 0 L)).
  { destruct fact.
    - split; [apply repeat_length|]. split; [intros a Ha; apply repeat_spec in Ha; lia|discriminate].
    - split; [apply seq_length|]. split; [intros a Ha; apply in_seq in Ha; lia|intros _; apply seq_NoDup]. }
  apply H in X. destruct X.
Qed.

Lemma combine_map_same {A B C} (f : A -> B) (g : A -> C) l : combine (map f l) (map g l) = map (fun x => (f x, g x)) l.
Proof. induction l as [|a l IH]; [reflexivity|]. cbn [map combine]. rewrite IH. reflexivity. Qed.

(** The value is the average over the rounds of the expected slate reward under the ranking policy -- of *the context the round is
    paired with*, and with the slate rewards that the mean discounting assigns. *)
Theorem C116_ground_truth : forall d free n E W c g all lg V, evaluation d n E W c g all ->
  (forall i s, (i < n)%nat -> In s all -> counted (sd_binary d) (fun k => nth k (sd_att d) 0) (sd_L d)
      (fun j => slot_mean (sd_binary d) (sd_structure d) W (E (used_context (batch_rounds n (length all) (sd_L d)) (sd_L d) i)) (sd_L d) (slots s) j * nth j (sd_exam d) 0) (V i s)) ->
  slate_ground_truth d free (Some (map g)) (tab n c) (tabR2 n (sd_K d) lg) =
  Ok (sumn n (fun i => sum_list all (fun s => ranking_prob (sd_fact d) (sd_K d) (fun a => exp (lg i a)) (slots s) (sd_L d) * V i s)) / INR n).
Proof.
  intros d free n E W c g all lg V [HL Hfit HK Hex HW Hn Hc Hg Hall] HV.
  pose proof (choices_enumerate (sd_fact d) (sd_K d) (sd_L d)) as Hch. pose proof (slate_exists _ _ _ Hfit HL) as Hne.
  set (ch := choices (sd_fact d) (seq 0 (sd_K d)) (sd_L d)) in *.
  assert (Hperm : Permutation all ch).
  { apply NoDup_Permutation; [apply Hall|apply Hch|]. intros s. rewrite (proj2 Hall), (proj2 Hch). reflexivity. }
  rewrite (Permutation_length Hperm) in HV.
  assert (Hm : (1 <= length ch)%nat) by (destruct ch; [congruence|simpl; lia]).
  pose proof (batch_rounds_pos n (length ch) (sd_L d) Hn Hm HL) as Hb.
  unfold slate_ground_truth. unfold tabR2 at 1. rewrite !nth_tab by lia. rewrite tab_length, Nat.eqb_refl, Hc, Nat.eqb_refl.
  unfold tabR2 at 1. rewrite !tab_length, Nat.eqb_refl. cbn [negb raise_if bind]. cbv zeta.
  assert (Elen : length (tabR2 n (sd_K d) lg) = n) by apply tab_length. rewrite !Elen. clear Elen.
  assert (Ech : (if sd_fact d then prods (seq 0 (sd_K d)) (sd_L d) else perms (seq 0 (sd_K d)) (sd_L d)) = ch) by (unfold ch, choices; destruct (sd_fact d); reflexivity).
  rewrite Ech. clear Ech. set (b := batch_rounds n (length ch) (sd_L d)) in *.
  change (map ?f (tabR2 n (sd_K d) lg)) with (map f (tab n (fun i => tab (sd_K d) (lg i)))). rewrite map_tab.
  set (P := fun i s => if sd_fact d then fold_left (fun (acc : R) a => acc * nth a (softmax_row (tab (sd_K d) (lg i))) 0) s 1 else calc_logit (tab (sd_K d) (lg i)) (seq 0 (sd_K d)) 1 s).
  rewrite !chunks_tab, combine_tab. set (k := ((n - 1) / b + 1)%nat).
  assert (Hk1 : forall q, (q < k)%nat -> (q * b <= n - 1)%nat).
  { intros q Hq. unfold k in Hq. pose proof (Nat.mul_div_le (n - 1) b). nia. }
  assert (Hk2 : (n <= k * b)%nat). { unfold k. pose proof (Nat.mul_succ_div_gt (n - 1) b). nia. }
  rewrite (mapM_tab k _ _ (fun q => sumn (Nat.min b (n - q * b)) (fun i => sum_list ch (fun s => P (q * b + i)%nat s * V (q * b + i)%nat s)))).
  - cbn [bind]. f_equal. f_equal. rewrite Rsum_tab, (sumn_batches b k n (fun i => sum_list ch (fun s => P i s * V i s)) Hk2). apply sumn_ext. intros i Hi.
    rewrite (sum_list_same all ch _ _ Hall Hch). apply sum_list_ext. intros s Hs. f_equal. unfold P. apply slate_prob. apply Hch, Hs.
  - intros q Hq. cbn [fst snd]. rewrite tab_length, map_tab. specialize (Hk1 q Hq).
    transitivity (rewards <- interaction_reward (tabR2 (Nat.min b (n - q * b)) (sd_K d) (fun i => E (q * b + i)%nat)) (Nat.min b (n - q * b)) (sd_K d) (map (fun a => int8 (Z.of_nat a)) (concat ch)) (sd_binary d) (sd_structure d) (sd_W d) (sd_L d) true ;;
      let e := map (examined (sd_exam d)) rewards in let e := if sd_binary d then map (discount_loop (sd_att d) 0 1 0) e else e in
      Ok (Rsum (map (fun pv => fst pv * snd pv) (combine (concat (tab (Nat.min b (n - q * b)) (fun i => map (P (q * b + i)%nat) ch))) (map Rsum e))))).
    + do 2 f_equal. unfold tabR2. apply tab_ext. intros i Hi. apply Hg. lia.
    + apply (enumerated_batch d _ (fun i => E (q * b + i)%nat) W ch (fun i s => P (q * b + i)%nat s) (fun i s => V (q * b + i)%nat s)); try assumption; [lia|intros s Hs; apply Hch in Hs; destruct Hs as (? & ? & _); auto|].
      intros i s Hi Hs. assert (Hin : In s all) by (apply (Permutation_in _ (Permutation_sym Hperm)), Hs). specialize (HV (q * b + i)%nat s ltac:(lia) Hin).
      unfold used_context in HV. destruct (divmod_block q i b ltac:(lia)) as [E1 E2]. rewrite E1, E2 in HV. exact HV.
Qed.

(** In a single batch (at most ten million slots over all rounds and slates) round [i] is paired with context [i / len_list], as in the log. *)
Lemma used_context_single n L i : (i < n)%nat -> used_context n L i = (i / L)%nat.
Proof. intros Hi. unfold used_context. rewrite Nat.div_small, Nat.mod_small by exact Hi. reflexivity. Qed.

(** Without click model, with continuous rewards, or with at most two slots the slate rewards are the true expected totals; with
    three slots they exceed them. *)
Theorem C116_true_value : forall d free n E W c g all lg, evaluation d n E W c g all ->
  (Z.of_nat n * Z.of_nat (length all) * Z.of_nat (sd_L d) <= 10 ^ 7)%Z ->
  let x i s j := slot_mean (sd_binary d) (sd_structure d) W (E (i / sd_L d)%nat) (sd_L d) (slots s) j * nth j (sd_exam d) 0 in
  let att k := nth k (sd_att d) 0 in
  let P i s := ranking_prob (sd_fact d) (sd_K d) (fun a => exp (lg i a)) (slots s) (sd_L d) in
  let value := slate_ground_truth d free (Some (map g)) (tab n c) (tabR2 n (sd_K d) lg) in
  (sd_binary d = false \/ (forall k, (0 < k < sd_L d)%nat -> att k = 1) ->
     value = Ok (sumn n (fun i => sum_list all (fun s => P i s * sumn (sd_L d) (x i s))) / INR n)) /\
  (sd_binary d = true -> (sd_L d <= 2)%nat ->
     value = Ok (sumn n (fun i => sum_list all (fun s => P i s * click_total att 0 1 (tab (sd_L d) (x i s)))) / INR n)) /\
  (sd_binary d = true -> sd_L d = 3%nat ->
     value = Ok (sumn n (fun i => sum_list all (fun s => P i s * (click_total att 0 1 (tab (sd_L d) (x i s)) +
        x i s 2%nat * (1 - att 2%nat) * x i s 1%nat * (1 - att 1%nat) ^ 2 * (x i s 0%nat * (1 - x i s 0%nat))))) / INR n)).
Proof.
  intros d free n E W c g all lg Hev Hsmall x att P value. pose proof Hev as [HL Hfit HK Hex HW Hn Hc Hg Hall].
  assert (Hm : (1 <= length all)%nat).
  { pose proof (choices_enumerate (sd_fact d) (sd_K d) (sd_L d)) as Hch. pose proof (slate_exists _ _ _ Hfit HL) as Hne.
    destruct all as [|a0 all]; [|simpl; lia]. destruct (choices (sd_fact d) (seq 0 (sd_K d)) (sd_L d)) as [|s ch]; [congruence|].
    destruct (proj2 (proj2 Hall s) (proj1 (proj2 Hch s) (or_introl eq_refl))). }
  pose proof (batch_rounds_all n (length all) (sd_L d) Hn Hm HL Hsmall) as Hb.
  assert (G : forall v, (forall i s, (i < n)%nat -> In s all -> counted (sd_binary d) att (sd_L d) (x i s) (v i s)) ->
            value = Ok (sumn n (fun i => sum_list all (fun s => P i s * v i s)) / INR n)).
  { intros v Hv. apply (C116_ground_truth d free n E W c g all lg v Hev). intros i s Hi Hs. rewrite Hb, used_context_single by exact Hi. apply Hv; assumption. }
  split; [|split].
  - intros H. apply G. intros i s Hi Hs. unfold counted. destruct (sd_binary d) eqn:Eb; [|reflexivity]. destruct H as [H|H]; [discriminate|].
    destruct (discount_means (sd_att d) (sd_L d) (x i s)) as (y & _ & Hy). exists y. split; [exact Hy|].
    symmetry. apply (proj1 (C115_mean_discounting att (x i s) y (sd_L d) Hy) H).
  - intros Eb H. apply G. intros i s Hi Hs. unfold counted. rewrite Eb. destruct (discount_means (sd_att d) (sd_L d) (x i s)) as (y & _ & Hy). exists y. split; [exact Hy|].
    symmetry. apply (proj1 (proj2 (C115_mean_discounting att (x i s) y (sd_L d) Hy)) H).
  - intros Eb H. apply G. intros i s Hi Hs. unfold counted. rewrite Eb. destruct (discount_means (sd_att d) (sd_L d) (x i s)) as (y & _ & Hy). exists y. split; [exact Hy|].
    symmetry. apply (proj2 (proj2 (C115_mean_discounting att (x i s) y (sd_L d) Hy)) H).
Qed.

(** Without base reward function: the context-free table, neither examination nor clicks, and *no division by the number of rounds*. *)
Theorem C116_context_free : forall d (free : nat -> nat -> R) n (c : nat -> list R) all lg,
  (1 <= sd_L d)%nat -> (sd_K d <= 128)%nat -> (1 <= n)%nat -> length (c 0%nat) = sd_dim d -> enumerates all (slate_of (sd_fact d) (sd_K d) (sd_L d)) ->
  slate_ground_truth d (tabR2 (sd_K d) (sd_L d) free) None (tab n c) (tabR2 n (sd_K d) lg) =
  Ok (sumn n (fun i => sum_list all (fun s => ranking_prob (sd_fact d) (sd_K d) (fun a => exp (lg i a)) (slots s) (sd_L d) * sumn (sd_L d) (fun j => free (nth j s 0%nat) j)))).
Proof.
  intros d free n c all lg HL HK Hn Hc Hall.
  pose proof (choices_enumerate (sd_fact d) (sd_K d) (sd_L d)) as Hch. set (ch := choices (sd_fact d) (seq 0 (sd_K d)) (sd_L d)) in *.
  unfold slate_ground_truth. unfold tabR2 at 1. rewrite !nth_tab by lia. rewrite tab_length, Nat.eqb_refl, Hc, Nat.eqb_refl.
  unfold tabR2 at 1. rewrite !tab_length, Nat.eqb_refl. cbn [negb raise_if bind]. cbv zeta.
  assert (Ech : (if sd_fact d then prods (seq 0 (sd_K d)) (sd_L d) else perms (seq 0 (sd_K d)) (sd_L d)) = ch) by (unfold ch, choices; destruct (sd_fact d); reflexivity).
  rewrite Ech. clear Ech.
  rewrite (mapM_Ok _ (fun s => sumn (sd_L d) (fun j => free (nth j s 0%nat) j))).
  - cbn [bind]. f_equal. change (map ?f (tabR2 n (sd_K d) lg)) with (map f (tab n (fun i => tab (sd_K d) (lg i)))). rewrite map_map.
    rewrite map_tab, Rsum_tab. apply sumn_ext. intros i Hi. rewrite (sum_list_same all ch _ _ Hall Hch).
    rewrite combine_map_same, map_map. change (Rsum (map ?f ch)) with (sum_list ch f). apply sum_list_ext. intros s Hs. cbn [fst snd]. f_equal. apply slate_prob. apply Hch, Hs.
  - intros s Hs. apply Hch in Hs as (Hl & Hs & _). 
    assert (Es : combine (seq 0 (sd_L d)) (map (fun a => int8 (Z.of_nat a)) s) = tab (sd_L d) (fun j => (j, int8 (Z.of_nat (nth j s 0%nat))))).
    { rewrite (tab_eta s 0%nat) at 1. rewrite map_tab, Hl. replace (seq 0 (sd_L d)) with (tab (sd_L d) (fun i => i)) by (unfold tab; apply map_id). apply combine_tab. }
    rewrite Es. rewrite (mapM_tab _ _ _ (fun j => free (nth j s 0%nat) j)); [cbn [bind]; rewrite Rsum_tab; reflexivity|].
    intros j Hj. cbn [fst snd]. assert (Ha : (nth j s 0 < sd_K d)%nat) by (apply Hs, nth_In; lia). unfold tabR2. rewrite int8_stored by exact Ha. cbn [bind].
    rewrite stored_small by lia. rewrite np_get_nat by exact Hj. reflexivity.
Qed.

(** Arrays of other shapes are rejected. *)
Theorem C116_rejects : forall d free base context logit,
  length (nth 0 logit []) <> sd_K d \/ length (nth 0 context []) <> sd_dim d \/ length logit <> length context ->
  slate_ground_truth d free base context logit = Err ValueError.
Proof.
  intros d free base context logit H. unfold slate_ground_truth.
  destruct (Nat.eqb_spec (length (nth 0 logit [])) (sd_K d)) as [E1|]; [|reflexivity]. cbn [negb raise_if bind].
  destruct (Nat.eqb_spec (length (nth 0 context [])) (sd_dim d)) as [E2|]; [|reflexivity]. cbn [negb raise_if bind].
  destruct (Nat.eqb_spec (length logit) (length context)) as [E3|]; [|reflexivity]. tauto.
Qed.

(** ** The on-policy value (C118) *)

Lemma sum_list_pick (l : list Z) (v : R) z : NoDup l -> In z l -> sum_list l (fun id => if Z.eqb z id then v else 0) = v.
Proof.
  induction l as [|a l IH]; intros Hnd Hin; [inversion Hin|]. rewrite sum_list_cons. inversion Hnd as [|? ? Hna Hnd']; subst. destruct Hin as [->|Hin].
  - rewrite Z.eqb_refl. rewrite sum_list_zero; [ring|]. intros id Hid. destruct (Z.eqb_spec z id); [subst; contradiction|reflexivity].
  - rewrite IH by assumption. destruct (Z.eqb_spec z a); [subst; contradiction|ring].
Qed.

(** The total reward of each slate, averaged over the slates that occur, wherever their rows stand. *)
Theorem C118_on_policy : forall (reward : list R) (slate_id ids : list Z), length reward = length slate_id -> slate_id <> [] ->
  NoDup ids -> (forall z, In z ids <-> In z slate_id) ->
  slate_on_policy reward slate_id =
  Ok (Fin (sum_list ids (fun id => sumn (length reward) (fun k => if Z.eqb (nth k slate_id 0%Z) id then nth k reward 0 else 0)) / INR (length ids))).
Proof.
  intros reward slate_id ids Hl Hne Hnd Hids. unfold slate_on_policy. rewrite Hl, Nat.eqb_refl. cbn [negb raise_if bind].
  assert (Hlen : length (distinct slate_id) = length ids).
  { apply Permutation_length, NoDup_Permutation; [apply distinct_NoDup|exact Hnd|]. intros z. rewrite distinct_In, Hids. reflexivity. }
  assert (Hpos : (1 <= length ids)%nat). { destruct slate_id as [|z r]; [congruence|]. pose proof (proj2 (Hids z) (or_introl eq_refl)) as Hz. destruct ids; [inversion Hz|simpl; lia]. }
  rewrite Hlen. unfold nnat. rewrite ndiv_Fin by (apply not_0_INR; lia). do 3 f_equal. rewrite <- Hl.
  transitivity (sum_list ids (fun id => sum_list (seq 0 (length reward)) (fun k => if Z.eqb (nth k slate_id 0%Z) id then nth k reward 0 else 0))).
  - rewrite sum_list_swap, sum_list_seq, (tab_eta reward 0) at 1. rewrite Rsum_tab. apply sumn_ext. intros k Hk. symmetry. apply sum_list_pick; [exact Hnd|]. apply Hids, nth_In. lia.
  - apply sum_list_ext. intros id _. apply sum_list_seq.
Qed.

(** On a generated log. *)
Theorem C118_generated : forall n L (y : nat -> nat -> R), (1 <= n)%nat -> (1 <= L)%nat ->
  slate_on_policy (flat n L y) (flat n L (fun i _ => Z.of_nat i)) = Ok (Fin (avg n (fun i => sumn L (y i)))).
Proof.
  intros n L y Hn HL. unfold slate_on_policy. rewrite !flat_length, Nat.eqb_refl. cbn [negb raise_if bind].
  assert (Hlen : length (distinct (flat n L (fun i _ => Z.of_nat i))) = n).
  { transitivity (length (map Z.of_nat (seq 0 n))); [|rewrite map_length; apply seq_length].
    apply Permutation_length, NoDup_Permutation; [apply distinct_NoDup|apply FinFun.Injective_map_NoDup; [intros a b; apply Nat2Z.inj|apply seq_NoDup]|].
    intros z. rewrite distinct_In, in_map_iff. unfold flat. rewrite in_concat. split.
    - intros (l & Hl & Hz). apply In_tab in Hl as (i & Hi & <-). apply In_tab in Hz as (j & Hj & <-). exists i. split; [reflexivity|]. apply in_seq. lia.
    - intros (i & <- & Hi). apply in_seq in Hi. exists (tab L (fun _ => Z.of_nat i)). split; apply In_tab; [exists i|exists 0%nat]; split; auto; lia. }
  rewrite Hlen. unfold nnat. rewrite ndiv_Fin by (apply not_0_INR; lia). unfold flat. rewrite concat_tab, Rsum_tab.
  do 2 f_equal. unfold avg. f_equal. rewrite sumn_block. apply sumn_ext. intros i Hi. apply sumn_ext. intros k Hk. destruct (divmod_block i k L Hk) as [-> ->]. reflexivity.
Qed.
Theorem C118_rejects : forall reward slate_id, length reward <> length slate_id -> slate_on_policy reward slate_id = Err ValueError.
Proof. intros reward slate_id H. unfold slate_on_policy. apply Nat.eqb_neq in H. rewrite H. reflexivity. Qed.

(** ** Examples meeting the hypotheses *)
Example C117_example : accepted 3 2 1 "binary" "cascade_decay" "exponential" (Some "cascade"%string) 1 false.
Proof. unfold accepted. repeat split; try lia; try lra; tauto. Qed.
Example C65_example :
  let d := mkSd 3 2 1 true StandardDecay [1; 1] [1; 1 / 2] (tabR2 2 2 (fun a b => if Nat.eqb a b then 0 else - exp (-1))) false in
  let c := fun i : nat => [INR i] in
  let E := fun (i a : nat) => if Nat.eqb i a then 1 / 2 else 1 / 4 in
  setting d 2 (fun a j => 1 / 3) (Some E) (Some (fun i a => INR a)) (fun a b => if Nat.eqb a b then 0 else - exp (-1)) (tab 2 c)
    (Some (fun _ => tabR2 2 3 E)) (Some (fun _ => tabR2 2 3 (fun i a => INR a))) /\
  evaluation d 2 (fun i a => INR i) (fun a b => if Nat.eqb a b then 0 else - exp (-1)) c (fun x => tab 3 (fun _ => nth 0 x 0)) (choices false (seq 0 3) 2) /\
  length (choices false (seq 0 3) 2) = 6%nat /\ (Z.of_nat 2 * Z.of_nat 6 * Z.of_nat 2 <= 10 ^ 7)%Z.
Proof.
  cbv zeta. split; [|split; [|split; [reflexivity|lia]]].
  - constructor; cbn [sd_K sd_L sd_fact sd_exam sd_att sd_W sd_structure sd_binary].
    + lia.
    + lia.
    + split; [reflexivity|]. intros [|[|k]] Hk; cbn; lra || lia.
    + intros [|[|[|k]]]; cbn; lra.
    + reflexivity.
    + split; [lia|reflexivity].
    + reflexivity.
    + reflexivity.
    + intros _. split; [intros; lra|]. intros i a _ _. destruct (Nat.eqb i a); lra.
  - constructor; cbn [sd_K sd_L sd_fact sd_exam sd_att sd_W sd_structure sd_binary sd_dim].
    + lia.
    + lia.
    + lia.
    + reflexivity.
    + reflexivity.
    + lia.
    + reflexivity.
    + intros i _. reflexivity.
    + apply choices_enumerate.
Qed.
Example C118_example : slate_on_policy [1; 0; 1; 1] [7; 3; 7; 3]%Z = Ok (Fin (3 / 2)).
Proof.
  rewrite (C118_on_policy _ _ [3; 7]%Z); [|reflexivity|discriminate|repeat constructor; simpl; intuition lia|intros z; simpl; intuition].
  do 2 f_equal. unfold sum_list. simpl. lra.
Qed.

Print Assumptions C64_rewards.
Print Assumptions C64_dataset.
Print Assumptions C117_init.
Print Assumptions C65_setting.
Print Assumptions C65_layout.
Print Assumptions C114_logged_rewards.
Print Assumptions C114_later_contexts_ignored.
Print Assumptions C114_action_wraps.
Print Assumptions C114_continuous_shared_noise.
Print Assumptions C115_click_law.
Print Assumptions C115_mean_discounting.
Print Assumptions C116_ground_truth.
Print Assumptions C116_true_value.
Print Assumptions C116_context_free.
Print Assumptions C116_rejects.
Print Assumptions C118_on_policy.
Print Assumptions C118_generated.
Print Assumptions C118_rejects.
