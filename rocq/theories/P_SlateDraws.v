(** * P_SlateDraws: property C154 (generated slate logs follow the law of the ranking policy and of the click model) *)

From Coq Require Import String Reals List ZArith Bool Lia Lra FunctionalExtensionality.
From Coquelicot Require Import Coquelicot.
From Verif Require Import Num NpList M_Utils M_Data M_Slate M_SlateData S_Base S_Prob S_Data S_SlateReg S_SlateData S_Slate S_Draws L_Num L_Base L_Utils L_Prob L_Data L_Draws
  L_SlateEst L_SlateUnb L_SlateData L_SlateReward P_Utils P_Slate P_SlateData P_SlatePolicy P_SlateReward P_Draws P_DrawLaw.
Import ListNotations.
Local Open Scope R_scope.

(** ** The process *)

(** A ranking policy that shows the slates listed in [all], and the clicks of a user for whom slot j has the click probability [x j]. *)
Definition ranking_dist (fact : bool) (K L : nat) (w : nat -> R) (all : list (list nat)) : dist (list nat) :=
  map (fun s => (s, ranking_prob fact K w (slots s) L)) all.
Definition click_dist (att x : nat -> R) (L : nat) : dist (list R) :=
  map (fun y : list bool => (map (fun b : bool => if b then 1 else 0) y, pattern_prob att x L y)) (patterns L).

(** Expected reward of slot [j] of the slate [s] in round [i], before clicks discount each other. *)
Definition slot_chance (d : slate_ds) (free : nat -> nat -> R) (E : option (nat -> nat -> R)) (W : nat -> nat -> R) (i : nat) (s : list nat) (j : nat) : R :=
  match E with
  | None => if Nat.ltb (nth j s 0%nat) (sd_K d) then free (nth j s 0%nat) j else 0
  | Some E => slot_mean (sd_binary d) (sd_structure d) W (E (i / sd_L d)%nat) (sd_L d) (slots (map (stored (sd_K d)) s)) j
  end * nth j (sd_exam d) 0.

(** Rounds 0..n-1 (later numbers stand for the last), behaviour logits [lg], evaluation logits [elg]. *)
Definition slate_process (d : slate_ds) (n : nat) (free : nat -> nat -> R) (E : option (nat -> nat -> R)) (W : nat -> nat -> R) (all : list (list nat))
    (lg elg : nat -> nat -> R) : senv nat :=
  let at_round x := Nat.min x (n - 1) in
  mkSenv n (sd_L d) (fun i => [(i, 1)])
    (fun x => ranking_dist (sd_fact d) (sd_K d) (sd_L d) (fun a => exp (lg (at_round x) a)) all)
    (fun x => ranking_dist (sd_fact d) (sd_K d) (sd_L d) (fun a => exp (elg (at_round x) a)) all)
    (fun x s => click_dist (fun k => nth k (sd_att d) 0) (fun j => if Nat.ltb j (sd_L d) then slot_chance d free E W (at_round x) s j else 0) (sd_L d)).

(** The slates and rewards of a batch. *)
Definition slate_rounds (n L : nat) (b : slate_batch) : list (nat * list nat * list R) :=
  tab n (fun i => (i, tab L (fun j => Z.to_nat (nth (i * L + j) (sb_action b) 0%Z)), tab L (fun j => nth (i * L + j) (sb_reward b) 0))).

(** ** Batches of draws *)

Lemma mean_app L : forall m F G v, uniform_mean L G v ->
  (forall us, unit_draws us -> uniform_mean m (fun vs => F (fun k => if Nat.ltb k L then us k else vs (k - L)%nat)) (G us)) -> uniform_mean (L + m) F v.
Proof.
  induction L as [|L IH]; intros m F G v HG H.
  - cbn [uniform_mean plus] in *. rewrite <- HG. eapply mean_ext; [|apply (H (fun _ => 1 / 2))]; [|intros i; lra].
    intros vs _. cbv beta. f_equal. extensionality k. cbn. f_equal. lia.
  - cbn [uniform_mean plus] in *. destruct HG as (G' & HG' & HI). exists G'. split; auto. intros u Hu.
    apply (IH m (fun us => F (scons u us)) (fun us => G (scons u us)) (G' u) (HG' u Hu)). intros us Hus.
    eapply mean_ext; [|apply (H (scons u us))]; [|intros [|i]; cbn; auto].
    intros vs _. cbv beta. f_equal. extensionality k. destruct k as [|k]; [reflexivity|]. cbn [scons]. change (Nat.ltb (S k) (S L)) with (Nat.ltb k L). reflexivity.
Qed.

Lemma mean_blocks {A} L n : forall (D : nat -> dist A) (s : nat -> (nat -> R) -> A) F,
  (forall i us us', (forall k, (k < L)%nat -> us k = us' k) -> s i us = s i us') ->
  (forall i g, (i < n)%nat -> uniform_mean L (fun us => g (s i us)) (expect (D i) g)) ->
  uniform_mean (n * L) (fun us => F (tab n (fun i => s i (fun k => us (i * L + k)%nat)))) (expect (dprod n D) F).
Proof.
  induction n as [|n IH]; intros D s F Hs H.
  - cbn. ring.
  - change (S n * L)%nat with (L + n * L)%nat. rewrite dprod_front.
    apply (mean_app L (n * L) _ (fun us => expect (dprod n (fun i => D (S i))) (fun o => F (s 0%nat us :: o)))).
    + apply (H 0%nat (fun x => expect (dprod n (fun i => D (S i))) (fun o => F (x :: o)))). lia.
    + intros us Hus. eapply mean_ext; [|apply (IH (fun i => D (S i)) (fun i => s (S i)) (fun o => F (s 0%nat us :: o)))].
      * intros vs _. cbv beta. rewrite tab_S_first. f_equal. f_equal.
        -- apply Hs. intros k Hk. cbn [Nat.mul Nat.add]. rewrite (proj2 (Nat.ltb_lt k L)) by exact Hk. reflexivity.
        -- apply tab_ext. intros i Hi. apply Hs. intros k Hk. replace (S i * L + k)%nat with (L + (i * L + k))%nat by (cbn; lia).
           rewrite (proj2 (Nat.ltb_ge _ L)) by lia. f_equal. lia.
      * intros i us1 us2 E. apply Hs, E.
      * intros i g Hi. apply H. lia.
Qed.

(** ** One slate *)

Definition drawn (fact : bool) (K L : nat) (lg : list R) (us : nat -> R) : list nat :=
  map fst (sample_round fact false K lg (fun _ _ => 0) 0 (seq 0 K) 1 (tab L us)).

Lemma drawn_any fact K lg : forall us unif item pos avail ps unif' item' pos' ps',
  map fst (sample_round fact unif K lg item pos avail ps us) = map fst (sample_round fact unif' K lg item' pos' avail ps' us).
Proof. induction us as [|u us IH]; intros; [reflexivity|]. cbn [sample_round map fst]. f_equal. apply IH. Qed.

Lemma sum_list_nth (l : list nat) f : sum_list l f = sumn (length l) (fun k => f (nth k l 0%nat)).
Proof.
  induction l as [|a l IH]; [reflexivity|]. rewrite sum_list_cons. cbn [length]. rewrite sumn_S_first. cbn [nth]. rewrite IH. reflexivity.
Qed.

Lemma scores_tab lg avail : avail <> [] -> scores lg avail = tab (length avail) (fun k => wt lg (nth k avail 0%nat) / sum_list avail (wt lg)).
Proof.
  intros H. rewrite scores_map by exact H. set (c := sum_list avail (wt lg)). clearbody c. rewrite (tab_eta avail 0%nat) at 1. rewrite map_tab. reflexivity.
Qed.

Lemma round_law fact unif K lg item : forall L avail pos ps (F : list nat -> R), NoDup avail -> enough fact avail L ->
  uniform_mean L (fun us => F (map fst (sample_round fact unif K lg item pos avail ps (tab L us)))) (sum_list (choices fact avail L) (fun s => pl fact (wt lg) avail s * F s)).
Proof.
  induction L as [|L IH]; intros avail pos ps F Hnd Hen.
  - cbn [uniform_mean]. rewrite choices_0. cbn. unfold sum_list; cbn. ring.
  - pose proof (enough_nonempty _ _ _ Hen) as Hne. cbn [uniform_mean].
    set (p := fun k => wt lg (nth k avail 0%nat) / sum_list avail (wt lg)).
    assert (Hw : 0 < sum_list avail (wt lg)) by (apply sum_list_pos; auto; intros; apply wt_pos).
    assert (Hp : forall k, (k < length avail)%nat -> 0 <= p k) by (intros k _; unfold p; apply Rlt_le, Rdiv_lt_0_compat; auto; apply wt_pos).
    assert (Hp1 : sumn (length avail) p = 1).
    { unfold p, Rdiv. rewrite sumn_scal_r. rewrite <- sum_list_nth. field. lra. }
    set (g := fun k => let a := nth k avail 0%nat in sum_list (choices fact (after fact avail a) L) (fun s => pl fact (wt lg) (after fact avail a) s * F (a :: s))).
    exists (fun u => g (sample_action_row (tab (length avail) p) u)). split.
    + intros u Hu. set (k := sample_action_row (tab (length avail) p) u). set (a := nth k avail 0%nat).
      assert (Hk : (k < length avail)%nat).
      { assert (Hs : Rsum (tab (length avail) p) = 1) by (rewrite Rsum_tab; exact Hp1).
        destruct (sample_row_spec (tab (length avail) p) u) as [Hk _]; [intros v Hv; apply In_tab in Hv as (b & Hb & <-); auto|rewrite Hs; lra|]. rewrite tab_length in Hk. exact Hk. }
      assert (Ha : In a avail) by (apply nth_In; exact Hk).
      eapply mean_ext; [|apply (IH (after fact avail a) (S pos) (ps * nth (index_of avail a) (tab (length avail) p) 0) (fun s => F (a :: s)))].
      * intros us _. cbv beta. rewrite tab_S_first. cbn [sample_round scons map fst]. rewrite scores_tab by exact Hne. fold p. fold k. fold a.
        unfold after, del. destruct fact; reflexivity.
      * unfold after, del, delete_action. destruct fact; [exact Hnd|apply NoDup_filter, Hnd].
      * apply enough_after; auto.
    + eapply is_RInt_val; [|apply (sampler_mean (length avail) p g Hp Hp1)].
      rewrite choices_S, sum_list_flat_map, sum_list_nth. apply sumn_ext. intros k Hk. unfold g. cbv zeta. rewrite sum_list_map. unfold p.
      rewrite <- sum_list_scal. apply sum_list_ext. intros s _. cbn [pl]. ring.
Qed.

Lemma expect_ranking fact K L w (all : list (list nat)) (F : list nat -> R) : expect (ranking_dist fact K L w all) F = sum_list all (fun s => ranking_prob fact K w (slots s) L * F s).
Proof.
  unfold ranking_dist. induction all as [|y l IH]; [reflexivity|]. rewrite sum_list_cons. change (expect (map (fun s => (s, ranking_prob fact K w (slots s) L)) (y :: l)) F) with (F y * ranking_prob fact K w (slots y) L + expect (map (fun s => (s, ranking_prob fact K w (slots s) L)) l) F). rewrite IH. ring.
Qed.

Lemma drawn_law (fact : bool) K L (lg : nat -> R) (all : list (list nat)) (F : list nat -> R) : (if fact then (1 <= K)%nat else (L <= K)%nat) -> enumerates all (slate_of fact K L) ->
  uniform_mean L (fun us => F (drawn fact K L (tab K lg) us)) (expect (ranking_dist fact K L (fun a => exp (lg a)) all) F).
Proof.
  intros Hfit Hall.
  assert (Hen : enough fact (seq 0 K) L) by (destruct fact; cbn [enough]; [destruct K; [lia|discriminate]|rewrite seq_length; exact Hfit]).
  assert (E : expect (ranking_dist fact K L (fun a => exp (lg a)) all) F = sum_list (choices fact (seq 0 K) L) (fun s => pl fact (wt (tab K lg)) (seq 0 K) s * F s)).
  { rewrite (sum_list_same (choices fact (seq 0 K) L) all (slate_of fact K L)); auto using choices_enumerate.
    rewrite expect_ranking. apply sum_list_ext. intros s Hs. apply Hall in Hs. rewrite <- (pl_tab fact K L lg s L Hs (le_n L)).
    destruct Hs as (Hlen & _). rewrite <- Hlen at 1. rewrite firstn_all. reflexivity. }
  rewrite E. apply round_law; auto using seq_NoDup.
Qed.

Lemma drawn_local fact K L lg us us' : (forall k, (k < L)%nat -> us k = us' k) -> drawn fact K L lg us = drawn fact K L lg us'.
Proof. intros H. unfold drawn. rewrite (tab_ext L us us' H). reflexivity. Qed.


(** ** The clicks of one slate *)

Fixpoint click_run (coin : R -> R -> bool) (att : nat -> R) (L pos : nat) (D : R) (x vs : nat -> R) : list bool :=
  match L with
  | O => []
  | S L => let y := coin (vs 0%nat) (D * x 0%nat) in
           y :: click_run coin att L (S pos) (D * (if y then att (S pos) else 1)) (fun k => x (S k)) (fun k => vs (S k))
  end.

Lemma click_run_length coin att : forall L pos D x vs, length (click_run coin att L pos D x vs) = L.
Proof. induction L; intros; [reflexivity|]. cbn [click_run length]. f_equal. apply IHL. Qed.

Lemma click_run_local coin att : forall L pos D x vs vs', (forall k, (k < L)%nat -> vs k = vs' k) -> click_run coin att L pos D x vs = click_run coin att L pos D x vs'.
Proof.
  induction L as [|L IH]; intros pos D x vs vs' H; [reflexivity|]. cbn [click_run]. rewrite (H 0%nat) by lia. f_equal. apply IH. intros k Hk. apply H. lia.
Qed.

Lemma click_run_ext coin att : forall L pos D x x' vs, (forall k, (k < L)%nat -> x k = x' k) -> click_run coin att L pos D x vs = click_run coin att L pos D x' vs.
Proof.
  induction L as [|L IH]; intros pos D x x' vs H; [reflexivity|]. cbn [click_run]. rewrite (H 0%nat) by lia. f_equal. apply IH. intros k Hk. apply H. lia.
Qed.

Lemma click_run_spec coin att : forall L pos D x vs k, (k < L)%nat ->
  let y := click_run coin att L pos D x vs in
  nth k y false = coin (vs k) (D * prodn k (fun i => if nth i y false then att (pos + S i)%nat else 1) * x k).
Proof.
  induction L as [|L IH]; intros pos D x vs k Hk; [lia|]. cbv zeta. cbn [click_run]. set (y0 := coin (vs 0%nat) (D * x 0%nat)). destruct k as [|k].
  - cbn [nth prodn]. unfold y0. f_equal. ring.
  - cbn [nth]. rewrite (IH (S pos) (D * (if y0 then att (S pos) else 1)) (fun k => x (S k)) (fun k => vs (S k)) k) by lia. f_equal. rewrite prodn_first. cbn [nth].
    replace (pos + 1)%nat with (S pos) by lia.
    set (y := click_run coin att L (S pos) (D * (if y0 then att (S pos) else 1)) (fun k => x (S k)) (fun k => vs (S k))).
    rewrite (prodn_ext k (fun i => if nth i y false then att (S pos + S i)%nat else 1) (fun i => if nth i y false then att (pos + S (S i))%nat else 1)); [ring|].
    intros i _. replace (S pos + S i)%nat with (pos + S (S i))%nat by lia. reflexivity.
Qed.

(** The run is the click pattern of the model. *)
Lemma click_run_clicks coin att L x vs : clicks att (fun k p => coin (vs k) p) L x (fun j => nth j (click_run coin att L 0 1 x vs) false).
Proof. intros j Hj. cbv beta. rewrite (click_run_spec coin att L 0 1 x vs j Hj). f_equal. rewrite Rmult_1_l. reflexivity. Qed.

Definition run_prob (att : nat -> R) (L pos : nat) (D : R) (x : nat -> R) (y : list bool) : R :=
  let c j := D * prodn j (fun i => if nth i y false then att (pos + S i)%nat else 1) * x j in
  prodn L (fun j => if nth j y false then c j else 1 - c j).

Lemma run_prob_cons att L pos D x b y : run_prob att (S L) pos D x (b :: y) =
  (if b : bool then D * x 0%nat else 1 - D * x 0%nat) * run_prob att L (S pos) (D * (if b then att (S pos) else 1)) (fun k => x (S k)) y.
Proof.
  unfold run_prob. cbv zeta. rewrite prodn_first. apply f_equal2; [cbn [nth prodn]; destruct b; ring|]. apply prodn_ext. intros j Hj. cbv beta. rewrite prodn_first. cbn [nth].
  replace (pos + 1)%nat with (S pos) by lia. rewrite (prodn_ext j (fun i => if nth i y false then att (S pos + S i)%nat else 1) (fun k => if nth k y false then att (pos + S (S k))%nat else 1)).
  - destruct (nth j y false); ring.
  - intros i _. replace (S pos + S i)%nat with (pos + S (S i))%nat by lia. reflexivity.
Qed.

Lemma run_prob_pattern att L x y : run_prob att L 0 1 x y = pattern_prob att x L y.
Proof.
  unfold run_prob, pattern_prob, click_prob. apply prodn_ext. intros j Hj. cbn [Nat.add]. rewrite Rmult_1_l. reflexivity.
Qed.

Lemma click_law coin (att : nat -> R) : fair_coin coin -> (forall k, 0 <= att k <= 1) -> forall L pos D x (F : list bool -> R), 0 <= D <= 1 -> (forall k, (k < L)%nat -> 0 <= x k <= 1) ->
  uniform_mean L (fun vs => F (click_run coin att L pos D x vs)) (sum_list (patterns L) (fun y => run_prob att L pos D x y * F y)).
Proof.
  intros Hc Ha. induction L as [|L IH]; intros pos D x F HD Hx.
  - cbn. unfold sum_list, run_prob; cbn. ring.
  - cbn [uniform_mean]. assert (Hp : 0 <= D * x 0%nat <= 1) by (apply unit_mul; auto; apply Hx; lia).
    set (g := fun b : bool => sum_list (patterns L) (fun y => run_prob att L (S pos) (D * (if b then att (S pos) else 1)) (fun k => x (S k)) y * F (b :: y))).
    exists (fun u => g (coin u (D * x 0%nat))). split.
    + intros u Hu. set (b := coin u (D * x 0%nat)).
      eapply mean_ext; [|apply (IH (S pos) (D * (if b then att (S pos) else 1)) (fun k => x (S k)) (fun y => F (b :: y)))].
      * intros vs _. cbn [click_run scons]. fold b. reflexivity.
      * apply unit_mul; auto. destruct b; [apply Ha|lra].
      * intros k Hk. apply Hx. lia.
    + rewrite patterns_sum. apply (is_RInt_ext (V := R_NormedModule) (fun u => (fun r : R => g (if Rltb 0 r then true else false)) (if coin u (D * x 0%nat) then 1 else 0))).
      * intros u _. cbv beta. destruct (coin u (D * x 0%nat)); [rewrite (proj2 (Rltb_true 0 1)) by lra|rewrite (proj2 (Rltb_false 0 0)) by lra]; reflexivity.
      * eapply is_RInt_val; [|apply (coin_int coin (D * x 0%nat) (fun r : R => g (if Rltb 0 r then true else false)) Hc Hp)]. cbv beta.
        rewrite (proj2 (Rltb_true 0 1)) by lra. rewrite (proj2 (Rltb_false 0 0)) by lra. unfold g.
        rewrite !(Rmult_comm (sum_list _ _)), <- !sum_list_scal. apply f_equal2; apply sum_list_ext; intros y _; rewrite run_prob_cons; ring.
Qed.

Lemma expect_clicks att L x (F : list R -> R) : expect (click_dist att x L) F = sum_list (patterns L) (fun y => pattern_prob att x L y * F (map (fun b : bool => if b then 1 else 0) y)).
Proof.
  unfold click_dist. generalize (patterns L). induction l as [|y l IH]; [reflexivity|]. rewrite sum_list_cons. cbn [map expect fold_right fst snd]. unfold expect in IH. rewrite IH. ring.
Qed.

(** ** The generated batch *)

Definition chance (d : slate_ds) free E W (i : nat) (s : list nat) (j : nat) : R := if Nat.ltb j (sd_L d) then slot_chance d free E W i s j else 0.
Definition drawn_slate (d : slate_ds) (lg : nat -> nat -> R) (us : nat -> R) (i : nat) : list nat :=
  drawn (sd_fact d) (sd_K d) (sd_L d) (tab (sd_K d) (lg i)) (fun k => us (i * sd_L d + k)%nat).
Definition drawn_clicks (d : slate_ds) free E W (coin : R -> R -> bool) (s : nat -> list nat) (vs : nat -> R) (i : nat) : list bool :=
  click_run coin (fun k => nth k (sd_att d) 0) (sd_L d) 0 1 (chance d free E W i (s i)) (fun k => vs (i * sd_L d + k)%nat).

Lemma sample_round_length fact unif K lg item : forall us pos avail ps, length (sample_round fact unif K lg item pos avail ps us) = length us.
Proof. induction us as [|u us IH]; intros; [reflexivity|]. cbn [sample_round length]. f_equal. apply IH. Qed.
Lemma drawn_length fact K L lg us : length (drawn fact K L lg us) = L.
Proof. unfold drawn. rewrite map_length, sample_round_length, tab_length. reflexivity. Qed.

Lemma obtain_action d free base beh tn n context item clip us flip b : slate_obtain d free base beh tn n context item clip us flip = Ok b ->
  exists ap, sample_slates d (match beh with None => true | Some _ => false end)
    (match beh with None => repeat (repeat (1 / INR (sd_K d)) (sd_K d)) (Z.to_nat n) | Some f => f context end) item clip us = Ok ap /\ sb_action b = fst ap.
Proof.
  unfold slate_obtain. cbv zeta. intros H.
  repeat match type of H with bind ?m _ = Ok _ => let E := fresh "E" in destruct m eqn:E; cbn [bind] in H; [|discriminate H] end.
  eexists. split; [reflexivity|]. injection H as <-. reflexivity.
Qed.

Lemma generated d n free E lg W context base beh tn coin item clip all us vs :
  setting d n free E lg W context base beh -> sd_binary d = true -> unit_draws us -> enumerates all (slate_of (sd_fact d) (sd_K d) (sd_L d)) ->
  (item = true -> forall c, clip = Some c -> c <= 700) ->
  let s := drawn_slate d (logits_of d lg) us in let y := drawn_clicks d free E W coin s vs in
  let P i k := ranking_prob (sd_fact d) (sd_K d) (fun a => exp (logits_of d lg i a)) (slots (s i)) k in
  (forall i, (i < n)%nat -> slate_of (sd_fact d) (sd_K d) (sd_L d) (s i)) /\
  exists b, slate_obtain d (tabR2 (sd_K d) (sd_L d) free) base beh tn (Z.of_nat n) context item clip (tabR2 n (sd_L d) (fun i j => us (i * sd_L d + j)%nat))
              (fun i j p => coin (vs (i * sd_L d + j)%nat) p) = Ok b /\
    sb_slate b = flat n (sd_L d) (fun i _ => Z.of_nat i) /\ sb_position b = flat n (sd_L d) (fun _ j => Z.of_nat j) /\
    sb_action b = logged n s /\ sb_reward b = flat n (sd_L d) (fun i j => if nth j (y i) false then 1 else 0) /\
    ps_cascade (sb_ps b) = flat n (sd_L d) (fun i j => P i (S j)) /\
    ps_joint (sb_ps b) = flat n (sd_L d) (fun i _ => P i (sd_L d)) /\
    ps_item (sb_ps b) = (if item then Some (flat n (sd_L d) (fun i j =>
                     if match beh with None => true | Some _ => false end then 1 / INR (sd_K d)
                     else item_prob (sd_fact d) (sd_K d) (sd_L d)
                            (fun a => exp (if (Nat.eqb j 0 || sd_fact d)%bool then logits_of d lg i a else clipped clip (logits_of d lg i a))) all j (nth j (s i) 0%nat)))
                   else None).
Proof.
  intros Hset Hb Hus Hall Hclip s y P.
  destruct (obtain_batch d n free E lg W context base beh tn (fun i j => us (i * sd_L d + j)%nat) all item clip (fun i j p => coin (vs (i * sd_L d + j)%nat) p) Hset) as (s' & ps & (Hs & Hc & Hj & Hi') & r & Eb & Hr); auto.
  { intros i j _ _. specialize (Hus (i * sd_L d + j)%nat). lra. }
  rewrite Hb in Hr. destruct Hr as (y' & Hy & ->).
  assert (Es : forall i, (i < n)%nat -> s' i = s i).
  { destruct (obtain_action _ _ _ _ _ _ _ _ _ _ _ _ Eb) as (ap & Eap & Ea). cbn [sb_action] in Ea.
    assert (Elg : match beh with None => repeat (repeat (1 / INR (sd_K d)) (sd_K d)) (Z.to_nat (Z.of_nat n)) | Some f => f context end = tabR2 n (sd_K d) (logits_of d lg)).
    { rewrite Nat2Z.id. pose proof (se_beh _ _ _ _ _ _ _ _ _ Hset) as Hbeh. destruct beh, lg; try contradiction; [exact Hbeh|]. unfold tabR2, logits_of. rewrite repeat_is_tab. apply tab_ext. intros. apply repeat_is_tab. }
    rewrite Elg in Eap. unfold sample_slates in Eap.
    match type of Eap with bind ?m _ = _ => destruct m; cbn [bind] in Eap; [|discriminate] end. injection Eap as <-. cbn [fst] in Ea.
    unfold tabR2 in Ea. rewrite combine_tab, !map_tab in Ea. cbn [fst snd] in Ea.
    assert (Ed : logged n s' = concat (tab n (fun i => map Z.of_nat (s i)))).
    { rewrite Ea. f_equal. apply tab_ext. intros i Hi. rewrite <- (map_map fst Z.of_nat). f_equal. unfold s, drawn_slate, drawn. apply drawn_any. }
    apply (f_equal (chunks n (sd_L d))) in Ed. unfold logged in Ed.
    rewrite !chunks_concat in Ed by (intros i Hi; rewrite map_length; [apply drawn_length || apply Hs, Hi]).
    intros i Hi. apply (f_equal (fun l => nth i l [])) in Ed. rewrite !nth_tab in Ed by exact Hi.
    apply (f_equal (map Z.to_nat)) in Ed. rewrite !map_map in Ed. rewrite !(map_ext (fun x => Z.to_nat (Z.of_nat x)) (fun x => x)) in Ed by (intros; apply Nat2Z.id). rewrite !map_id in Ed. exact Ed. }
  assert (Hs2 : forall i, (i < n)%nat -> slate_of (sd_fact d) (sd_K d) (sd_L d) (s i)) by (intros i Hi; rewrite <- Es by exact Hi; auto).
  split; [exact Hs2|]. eexists. split; [exact Eb|]. cbn [sb_slate sb_position sb_action sb_reward sb_ps]. split; [reflexivity|]. split; [reflexivity|]. split; [|split; [|split; [|split]]].
  - unfold logged. f_equal. apply tab_ext. intros i Hi. rewrite Es by exact Hi. reflexivity.
  - apply flat_ext. intros i j Hi Hj'. unfold b2r.
    enough (Ey : y' i j = nth j (y i) false) by (rewrite Ey; reflexivity).
    apply (clicks_unique (fun k => nth k (sd_att d) 0) (fun k p => coin (vs (i * sd_L d + k)%nat) p) (sd_L d) (fun j => logged_mean d free E W s' i j * nth j (sd_exam d) 0) (y' i) (fun j => nth j (y i) false)); auto.
    intros k Hk. unfold y, drawn_clicks.
      pose proof (click_run_clicks coin (fun k => nth k (sd_att d) 0) (sd_L d) (chance d free E W i (s i)) (fun k => vs (i * sd_L d + k)%nat) k Hk) as Hcr. cbv beta in Hcr.
      rewrite Hcr. f_equal. f_equal. unfold chance, slot_chance, logged_mean. rewrite (proj2 (Nat.ltb_lt _ _) Hk). rewrite Es by exact Hi. destruct E as [E|]; [reflexivity|].
      destruct (Hs2 i Hi) as (Hl & HK & _). rewrite (proj2 (Nat.ltb_lt _ _)); [reflexivity|]. apply HK, nth_In. lia.
  - rewrite Hc. apply flat_ext. intros i j Hi _. unfold P. rewrite Es by exact Hi. reflexivity.
  - rewrite Hj. apply flat_ext. intros i j Hi _. unfold P. rewrite Es by exact Hi. reflexivity.
  - rewrite Hi'. destruct item; [|reflexivity]. f_equal. apply flat_ext. intros i j Hi _. rewrite Es by exact Hi. reflexivity.
Qed.

Lemma rounds_of_batch n L b s (y : nat -> list bool) : (forall i, (i < n)%nat -> length (s i) = L) -> (forall i, (i < n)%nat -> length (y i) = L) ->
  sb_action b = logged n s -> sb_reward b = flat n L (fun i j => if nth j (y i) false then 1 else 0) ->
  slate_rounds n L b = tab n (fun i => (i, s i, map (fun b : bool => if b then 1 else 0) (y i))).
Proof.
  intros Hs Hy Ea Er. unfold slate_rounds. apply tab_ext. intros i Hi.
  assert (El : logged n s = flat n L (fun i j => Z.of_nat (nth j (s i) 0%nat))).
  { unfold logged, flat. f_equal. apply tab_ext. intros k Hk. rewrite (tab_eta (s k) 0%nat) at 1. rewrite map_tab, Hs by exact Hk. reflexivity. }
  assert (At : forall A (a0 : A) (f : nat -> nat -> A) j, (j < L)%nat -> nth (i * L + j) (flat n L f) a0 = f i j).
  { intros A a0 f j Hj. unfold flat. rewrite concat_tab. destruct (divmod_block i j L Hj) as [D M]. rewrite nth_tab by nia. rewrite D, M. reflexivity. }
  f_equal; [f_equal|].
  - rewrite (tab_eta (s i) 0%nat) at 1. rewrite Hs by exact Hi. apply tab_ext. intros j Hj. rewrite Ea, El, At by exact Hj. apply Nat2Z.id.
  - rewrite (tab_eta (y i) false) at 1. rewrite Hy by exact Hi. rewrite map_tab. apply tab_ext. intros j Hj. rewrite Er, At by exact Hj. reflexivity.
Qed.

Lemma chance_range d n free E lg W context base beh i s j : setting d n free E lg W context base beh -> sd_binary d = true -> 0 <= chance d free E W i s j <= 1.
Proof.
  intros [_ _ [_ He] _ _ _ _ _ Hp] Hb. unfold chance. destruct (Nat.ltb_spec j (sd_L d)) as [Hj|]; [|lra]. unfold slot_chance. destruct (Hp Hb) as [Hfree _]. apply unit_mul; [|apply He, Hj].
  destruct E as [E|].
  - rewrite Hb. pose proof (slot_mean_binary (sd_structure d) W (E (i / sd_L d)%nat) (sd_L d) (slots (map (stored (sd_K d)) s)) j). lra.
  - destruct (Nat.ltb_spec (nth j s 0%nat) (sd_K d)); [apply Hfree; auto|lra].
Qed.

Lemma click_dist_ok att L x : (forall k, 0 <= att k <= 1) -> (forall j, 0 <= x j <= 1) -> is_dist (click_dist att x L).
Proof.
  intros Ha Hx. split.
  - intros r p Hin. unfold click_dist in Hin. apply in_map_iff in Hin as (y & [= _ <-] & _). unfold pattern_prob. apply (prodn_range L). intros j Hj.
    assert (Hc : 0 <= click_prob att x y j <= 1).
    { unfold click_prob. apply unit_mul; [|apply Hx]. apply prodn_range. intros k Hk. destruct (nth k y false); [apply Ha|lra]. }
    destruct (nth j y false); lra.
  - rewrite expect_clicks. rewrite (sum_list_ext _ _ (pattern_prob att x L)) by (intros; ring). apply (C115_click_law att x L).
Qed.

Lemma ranking_dist_ok (fact : bool) K L w all : (forall a, 0 < w a) -> (1 <= L)%nat -> (if fact then (1 <= K)%nat else (L <= K)%nat) -> enumerates all (slate_of fact K L) -> is_dist (ranking_dist fact K L w all).
Proof.
  intros Hw HL Hfit Hall. split.
  - intros s p Hin. unfold ranking_dist in Hin. apply in_map_iff in Hin as (t & [= <- <-] & Ht). apply Hall in Ht. pose proof (ranking_prob_range fact K L w t L Hw HL Ht (le_n L)). lra.
  - rewrite expect_ranking. rewrite (sum_list_ext _ _ (fun s => ranking_prob fact K w (slots s) L)) by (intros; ring).
    pose proof (slate_exists fact K L Hfit HL) as Hne. destruct (choices fact (seq 0 K) L) as [|s l] eqn:Ec; [congruence|].
    assert (Hs : slate_of fact K L s) by (apply (proj2 (choices_enumerate fact K L)); rewrite Ec; left; reflexivity).
    apply (C62_distribution fact K L w all s Hw HL Hall Hs).
Qed.

(** The log a slate dataset with binary rewards generates from uniform numbers is distributed as [slate_logs] of the process with its own
    behaviour policy, reward means and click model. *)
Theorem C154_law : forall d n free E lg W context base beh tn coin item clip all elg,
  setting d n free E lg W context base beh -> sd_binary d = true -> fair_coin coin -> possible_coin coin ->
  enumerates all (slate_of (sd_fact d) (sd_K d) (sd_L d)) -> (item = true -> forall c, clip = Some c -> c <= 700) ->
  let L := sd_L d in
  let generate us vs := slate_obtain d (tabR2 (sd_K d) L free) base beh tn (Z.of_nat n) context item clip (tabR2 n L (fun i j => us (i * L + j)%nat))
                          (fun i j p => coin (vs (i * L + j)%nat) p) in
  let e := slate_process d n free E W all (logits_of d lg) elg in
  senv_ok e /\
  (forall us vs, unit_draws us -> unit_draws vs -> exists b, generate us vs = Ok b /\ exists p, In (slate_rounds n L b, p) (slate_logs e) /\ p <> 0) /\
  (forall F, uniform_mean2 (n * L) (fun us vs => match generate us vs with Ok b => F (slate_rounds n L b) | Err _ => 0 end) (expect (slate_logs e) F)).
Proof.
  intros d n free E lg W context base beh tn coin item clip all elg Hset Hb Hcoin Hposs Hall Hclip L generate e.
  pose proof Hset as [HL Hfit [Hel He] Hatt HW [Hn Hctx] _ _ _].
  assert (Hclamp : forall x, (x < n)%nat -> Nat.min x (n - 1) = x) by (intros; lia).
  set (att := fun k => nth k (sd_att d) 0) in *.
  assert (Hch : forall i s j, 0 <= chance d free E W i s j <= 1) by (intros; eapply chance_range; eauto).
  assert (Hex : forall (lg : nat -> R) (a : nat), 0 < exp (lg a)) by (intros; apply exp_pos).
  assert (Hgen : forall us vs, unit_draws us -> let s := drawn_slate d (logits_of d lg) us in let y := drawn_clicks d free E W coin s vs in
     (forall i, (i < n)%nat -> slate_of (sd_fact d) (sd_K d) L (s i)) /\
     exists b, generate us vs = Ok b /\ slate_rounds n L b = tab n (fun i => (i, s i, map (fun b : bool => if b then 1 else 0) (y i)))).
  { intros us vs Hus s y. destruct (generated d n free E lg W context base beh tn coin item clip all us vs Hset Hb Hus Hall Hclip) as (Hs & b & Eb & _ & _ & Ea & Er & _).
    fold s in Hs, Ea, Er. fold y in Er. split; [exact Hs|]. exists b. split; [exact Eb|]. apply rounds_of_batch; auto.
    - intros i Hi. apply Hs, Hi.
    - intros i Hi. apply click_run_length. }
  split; [|split].
  - constructor; cbn [e slate_process S_Slate.se_n S_Slate.se_L se_ctx se_mu se_nu se_rd]; auto.
    + intros i _. split; [intros a p [[= <- <-]|[]]; lra|]. cbn. lra.
    + intros x. apply ranking_dist_ok; auto.
    + intros x. apply ranking_dist_ok; auto.
    + intros x s. apply click_dist_ok; auto. intros j. apply (Hch (Nat.min x (n - 1)) s j).
  - intros us vs Hus Hvs. destruct (Hgen us vs Hus) as (Hs & b & Eb & Er). exists b. split; [exact Eb|]. rewrite Er. apply In_dprod. intros i Hi.
    unfold slate_round, e, slate_process. cbn [S_Slate.se_n S_Slate.se_L se_ctx se_mu se_nu se_rd]. 
    set (s := drawn_slate d (logits_of d lg) us) in *. set (y := drawn_clicks d free E W coin s vs i).
    set (P := ranking_prob (sd_fact d) (sd_K d) (fun a => exp (logits_of d lg i a)) (slots (s i)) L).
    set (Q := pattern_prob att (chance d free E W i (s i)) L y).
    assert (HP : 0 < P) by (apply (ranking_prob_range (sd_fact d) (sd_K d) L); auto).
    assert (HQ : 0 < Q).
    { apply prodn_pos. intros j Hj. pose proof (click_run_clicks coin att L (chance d free E W i (s i)) (fun k => vs (i * L + k)%nat) j Hj) as Hc. cbv beta in Hc.
      change (click_run coin att L 0 1 (chance d free E W i (s i)) (fun k => vs (i * L + k)%nat)) with y in Hc. fold (click_prob att (chance d free E W i (s i)) y j) in Hc.
      assert (Hr : 0 <= click_prob att (chance d free E W i (s i)) y j <= 1).
      { unfold click_prob. apply unit_mul; [|apply Hch]. apply prodn_range. intros k Hk. destruct (nth k y false); [apply Hatt|lra]. }
      specialize (Hposs (vs (i * L + j)%nat) _ (Hvs _) Hr). rewrite <- Hc in Hposs. destruct (nth j y false); lra. }
    exists (1 * (P * Q)). split; [|assert (0 < P * Q) by (apply Rmult_lt_0_compat; auto); lra].
    apply (In_dbind _ _ i 1); [left; reflexivity|]. rewrite (Hclamp i Hi). apply (In_dbind _ _ (s i) P).
    + unfold ranking_dist. apply in_map_iff. exists (s i). split; [reflexivity|]. apply Hall, Hs, Hi.
    + unfold dmap. apply in_map_iff. exists (map (fun b : bool => if b then 1 else 0) y, Q). split; [reflexivity|]. unfold click_dist. apply in_map_iff. exists y. split; [reflexivity|].
      apply patterns_all, click_run_length.
  - intros F.
    set (Rd := fun i s => dmap (fun r => (i, s, r)) (click_dist att (chance d free E W i s) L) : dist (nat * list nat * list R)).
    assert (EE : expect (slate_logs e) F = expect (dprod n (fun i => ranking_dist (sd_fact d) (sd_K d) L (fun a => exp (logits_of d lg i a)) all)) (fun o => expect (dprod n (fun i => Rd i (nth i o []))) F)).
    { rewrite <- (dprod_dbind n [] (fun i => ranking_dist (sd_fact d) (sd_K d) L (fun a => exp (logits_of d lg i a)) all) Rd F). unfold slate_logs. cbn [e slate_process S_Slate.se_n]. apply dprod_ext. intros i gg Hi.
      unfold slate_round, e, slate_process. cbn [se_ctx se_mu se_rd]. rewrite expect_dbind. cbn [expect fold_right fst snd]. rewrite (Hclamp i Hi), Rmult_1_r, Rplus_0_r.
      rewrite !expect_dbind. apply expect_ext_all. intros s. reflexivity. }
    exists (fun us => expect (dprod n (fun i => Rd i (drawn_slate d (logits_of d lg) us i))) F). split.
    + intros us Hus.
      eapply mean_ext; [|apply (mean_blocks L n (fun i => Rd i (drawn_slate d (logits_of d lg) us i))
           (fun i vs => (i, drawn_slate d (logits_of d lg) us i, map (fun b : bool => if b then 1 else 0) (click_run coin att L 0 1 (chance d free E W i (drawn_slate d (logits_of d lg) us i)) vs))) F)].
      * intros vs Hvs. cbv beta. destruct (Hgen us vs Hus) as (_ & b & Eb & Er). rewrite Eb, Er. reflexivity.
      * intros i vs vs' Hv. cbv beta. rewrite (click_run_local coin att L 0 1 _ vs vs' Hv). reflexivity.
      * intros i gg Hi. unfold Rd. rewrite expect_dmap, expect_clicks.
        rewrite (sum_list_ext _ _ (fun y => run_prob att L 0 1 (chance d free E W i (drawn_slate d (logits_of d lg) us i)) y *
                     gg (i, drawn_slate d (logits_of d lg) us i, map (fun b : bool => if b then 1 else 0) y))) by (intros y _; rewrite run_prob_pattern; reflexivity).
        apply (click_law coin att Hcoin Hatt L 0 1 (chance d free E W i (drawn_slate d (logits_of d lg) us i))
                 (fun y => gg (i, drawn_slate d (logits_of d lg) us i, map (fun b : bool => if b then 1 else 0) y))); [lra|]. intros k _. apply Hch.
    + rewrite EE.
      eapply mean_ext; [|apply (mean_blocks L n (fun i => ranking_dist (sd_fact d) (sd_K d) L (fun a => exp (logits_of d lg i a)) all)
           (fun i us => drawn (sd_fact d) (sd_K d) L (tab (sd_K d) (logits_of d lg i)) us) (fun o => expect (dprod n (fun i => Rd i (nth i o []))) F))].
      * intros us Hus. cbv beta. apply dprod_ext. intros i gg Hi. rewrite nth_tab by exact Hi. reflexivity.
      * intros i us us' Hu. apply drawn_local, Hu.
      * intros i gg Hi. apply drawn_law; auto.
Qed.

(** ** Propensities, support and structure of the process *)

Lemma propensity_ranking fact K L w all kd k s : (forall a, 0 < w a) -> (1 <= L)%nat -> enumerates all (slate_of fact K L) -> slate_of fact K L s -> (k < L)%nat ->
  propensity kd k (ranking_dist fact K L w all) s =
  match kd with S_Slate.Standard => ranking_prob fact K w (slots s) L | S_Slate.Cascade => ranking_prob fact K w (slots s) (S k) | S_Slate.Independent => item_prob fact K L w all k (nth k s 0%nat) end.
Proof.
  intros Hw HL Hall Hs Hk. unfold propensity. rewrite expect_ranking.
  destruct (C62_distribution fact K L w all s Hw HL Hall Hs) as (_ & Hpre & _).
  destruct kd.
  - rewrite (Hpre L (le_n L)). apply sum_list_ext. intros t Ht. apply Hall in Ht. destruct Hs as (Ls & _), Ht as (Lt & _).
    rewrite (firstn_all2 s), (firstn_all2 t) by lia. unfold agree. destruct (list_eq_dec Nat.eq_dec s t), (list_eq_dec Nat.eq_dec t s); try congruence; ring.
  - unfold item_prob. apply sum_list_ext. intros t _. unfold agree. destruct (Nat.eq_dec (nth k s 0%nat) (nth k t 0%nat)), (Nat.eq_dec (nth k t 0%nat) (nth k s 0%nat)); try congruence; ring.
  - rewrite (Hpre (S k)) by lia. apply sum_list_ext. intros t _. unfold agree. destruct (list_eq_dec Nat.eq_dec (firstn (S k) s) (firstn (S k) t)), (list_eq_dec Nat.eq_dec (firstn (S k) t) (firstn (S k) s)); try congruence; ring.
Qed.

Lemma process_support d n free E W all lg elg kd : (1 <= sd_L d)%nat -> enumerates all (slate_of (sd_fact d) (sd_K d) (sd_L d)) -> slate_support (slate_process d n free E W all lg elg) kd.
Proof.
  intros HL Hall x s p k Hin _ Hk. unfold slate_process in *. cbn [S_Slate.se_L se_mu se_nu] in *. unfold ranking_dist in Hin. apply in_map_iff in Hin as (t & [= <- _] & Ht). apply Hall in Ht.
  assert (Hw : forall a : nat, 0 < exp (lg (Nat.min x (n - 1)) a)) by (intros; apply exp_pos).
  rewrite propensity_ranking by assumption. destruct kd.
  - apply (ranking_prob_range (sd_fact d) (sd_K d) (sd_L d)); auto.
  - apply item_prob_range; auto.
  - apply (ranking_prob_range (sd_fact d) (sd_K d) (sd_L d)); auto.
Qed.

Definition click_mean (att x : nat -> R) (L pos : nat) (D : R) (k : nat) : R := sum_list (patterns L) (fun y => run_prob att L pos D x y * (if nth k y false then 1 else 0)).
Lemma click_mean_step att x L pos D k : click_mean att x (S L) pos D k =
  match k with
  | O => D * x 0%nat
  | S k => D * x 0%nat * click_mean att (fun j => x (S j)) L (S pos) (D * att (S pos)) k + (1 - D * x 0%nat) * click_mean att (fun j => x (S j)) L (S pos) D k
  end.
Proof.
  unfold click_mean. rewrite patterns_sum.
  rewrite (sum_list_ext _ (fun y => run_prob att (S L) pos D x (true :: y) * (if nth k (true :: y) false then 1 else 0))
     (fun y => D * x 0%nat * (run_prob att L (S pos) (D * att (S pos)) (fun k => x (S k)) y * (if nth k (true :: y) false then 1 else 0)))) by (intros y _; rewrite run_prob_cons; ring).
  rewrite (sum_list_ext _ (fun y => run_prob att (S L) pos D x (false :: y) * (if nth k (false :: y) false then 1 else 0))
     (fun y => (1 - D * x 0%nat) * (run_prob att L (S pos) D (fun k => x (S k)) y * (if nth k (false :: y) false then 1 else 0)))).
  2:{ intros y _. rewrite run_prob_cons, Rmult_1_r. ring. }
  rewrite !sum_list_scal. destruct k as [|k]; [|reflexivity]. cbn [nth].
  rewrite (sum_list_ext _ _ (fun y => run_prob att L (S pos) (D * att (S pos)) (fun k => x (S k)) y)) by (intros; ring).
  rewrite (sum_list_zero _ (fun a => run_prob att L (S pos) D (fun k => x (S k)) a * 0)) by (intros; ring).
  unfold run_prob. cbv zeta. destruct (pattern_sums att L (S pos) (D * att (S pos)) (fun k => x (S k))) as [T _]. cbv zeta in T. rewrite T. ring.
Qed.
Lemma click_mean_prefix att : forall k x x' L pos D, (k < L)%nat -> (forall j, (j <= k)%nat -> x j = x' j) -> click_mean att x L pos D k = click_mean att x' L pos D k.
Proof.
  induction k as [|k IH]; intros x x' L pos D Hk Hx; (destruct L as [|L]; [lia|]); rewrite !click_mean_step; rewrite (Hx 0%nat) by lia; [reflexivity|].
  rewrite !(IH (fun j => x (S j)) (fun j => x' (S j))) by (try lia; intros; apply Hx; lia). reflexivity.
Qed.
Lemma click_mean_plain att : forall k x L pos D, (k < L)%nat -> (forall j, (pos < j < pos + L)%nat -> att j = 1) -> click_mean att x L pos D k = D * x k.
Proof.
  induction k as [|k IH]; intros x L pos D Hk Ha; (destruct L as [|L]; [lia|]); rewrite click_mean_step; [reflexivity|].
  rewrite !IH by (try lia; intros; apply Ha; lia). rewrite Ha by lia. ring.
Qed.

Lemma slate_q_clicks d n free E W all lg elg x s k :
  slate_q (slate_process d n free E W all lg elg) x s k = click_mean (fun k => nth k (sd_att d) 0) (chance d free E W (Nat.min x (n - 1)) s) (sd_L d) 0 1 k.
Proof.
  unfold slate_q, slate_process. cbn [se_rd]. rewrite expect_clicks. unfold click_mean. apply sum_list_ext. intros y _. rewrite run_prob_pattern. f_equal.
  exact (map_nth (fun b : bool => if b then 1 else 0) y false k).
Qed.

Lemma nth_stored K s j : nth j (map (stored K) s) 0%nat = stored K (nth j s 0%nat).
Proof. change 0%nat with (stored K 0) at 1. apply map_nth. Qed.

(** The structures for which a slot's reward depends only on the slots up to it, and only on its own action. *)
Definition cascade_rewards (d : slate_ds) (E : option (nat -> nat -> R)) : Prop :=
  match E with None => True | Some _ => sd_structure d = CascadeAdditive \/ sd_structure d = CascadeDecay \/ sd_structure d = M_SlateData.Independent end.
Definition own_rewards (d : slate_ds) (E : option (nat -> nat -> R)) : Prop :=
  match E with None => True | Some _ => sd_structure d = M_SlateData.Independent end /\ forall k, (0 < k < sd_L d)%nat -> nth k (sd_att d) 0 = 1.

Lemma slot_total_ext st W g L s t j : s j = t j -> (forall p, influences st j p = true -> s p = t p) -> slot_total st W g L s j = slot_total st W g L t j.
Proof.
  intros Hj Hp. unfold slot_total. rewrite Hj. f_equal. apply sumn_ext. intros p _. destruct (influences st j p) eqn:Ei; [|reflexivity]. rewrite (Hp p Ei). destruct st; reflexivity.
Qed.

Lemma chance_cascade d free E W i s t k : cascade_rewards d E -> (forall p, (p <= k)%nat -> nth p s 0%nat = nth p t 0%nat) -> chance d free E W i s k = chance d free E W i t k.
Proof.
  intros Hc Hp. unfold chance, slot_chance. destruct (Nat.ltb k (sd_L d)); [|reflexivity]. f_equal. destruct E as [E|]; [|rewrite (Hp k) by lia; reflexivity].
  unfold slot_mean.
  assert (X : forall g, slot_total (sd_structure d) W g (sd_L d) (slots (map (stored (sd_K d)) s)) k = slot_total (sd_structure d) W g (sd_L d) (slots (map (stored (sd_K d)) t)) k).
  { intros g. apply slot_total_ext; [rewrite !nth_stored, (Hp k) by lia; reflexivity|]. intros p Hi. rewrite !nth_stored. f_equal. apply Hp.
    cbn [cascade_rewards] in Hc. destruct Hc as [Hc | [Hc | Hc]]; rewrite Hc in Hi; cbn [influences] in Hi; try discriminate; apply Nat.ltb_lt in Hi; lia. }
  rewrite !X. reflexivity.
Qed.

Lemma chance_own d free E W i s t k : own_rewards d E -> nth k s 0%nat = nth k t 0%nat -> chance d free E W i s k = chance d free E W i t k.
Proof.
  intros [Hc _] Hp. unfold chance, slot_chance. destruct (Nat.ltb k (sd_L d)); [|reflexivity]. f_equal. destruct E as [E|]; [|rewrite Hp; reflexivity].
  unfold slot_mean.
  assert (X : forall g, slot_total (sd_structure d) W g (sd_L d) (slots (map (stored (sd_K d)) s)) k = slot_total (sd_structure d) W g (sd_L d) (slots (map (stored (sd_K d)) t)) k).
  { intros g. apply slot_total_ext; [rewrite !nth_stored, Hp; reflexivity|]. intros p Hi. rewrite Hc in Hi. discriminate. }
  rewrite !X. reflexivity.
Qed.

Lemma nth_of_firstn (s t : list nat) m p : firstn m s = firstn m t -> (p < m)%nat -> nth p s 0%nat = nth p t 0%nat.
Proof.
  intros H Hp. revert s t p H Hp. induction m as [|m IH]; intros s t p H Hp; [lia|]. destruct s as [|a s], t as [|b t]; try discriminate; [reflexivity|].
  injection H as -> H. destruct p as [|p]; [reflexivity|]. cbn [nth]. apply IH; auto. lia.
Qed.

Lemma process_cascade d n free E W all lg elg : cascade_rewards d E -> reward_structure (slate_process d n free E W all lg elg) S_Slate.Cascade.
Proof.
  intros Hc x s t k Hk Ha. cbn [slate_process S_Slate.se_L] in Hk. rewrite !slate_q_clicks. apply click_mean_prefix; auto. intros j Hj. apply chance_cascade; auto.
  intros p Hp. cbn [agree] in Ha. destruct (list_eq_dec Nat.eq_dec (firstn (S k) s) (firstn (S k) t)) as [Ef|]; [|discriminate]. apply (nth_of_firstn s t (S k)); auto. lia.
Qed.
Lemma process_own d n free E W all lg elg : own_rewards d E -> reward_structure (slate_process d n free E W all lg elg) S_Slate.Independent.
Proof.
  intros Hc x s t k Hk Ha. cbn [slate_process S_Slate.se_L] in Hk. rewrite !slate_q_clicks. rewrite !click_mean_plain by (auto; intros j Hj; apply Hc; lia). f_equal. apply chance_own; auto.
  cbn [agree] in Ha. destruct (Nat.eq_dec (nth k s 0%nat) (nth k t 0%nat)); [auto|discriminate].
Qed.

(** The value of the evaluation policy: slates drawn by it, expected clicks on each of them. *)
Lemma process_value d n free E W all lg elg :
  slate_policy_value (slate_process d n free E W all lg elg) =
  avg n (fun i => sum_list all (fun s => ranking_prob (sd_fact d) (sd_K d) (fun a => exp (elg i a)) (slots s) (sd_L d) *
    click_total (fun k => nth k (sd_att d) 0) 0 1 (tab (sd_L d) (slot_chance d free E W i s)))).
Proof.
  unfold slate_policy_value. change (S_Slate.se_n (slate_process d n free E W all lg elg)) with n. change (S_Slate.se_L (slate_process d n free E W all lg elg)) with (sd_L d). apply avg_ext. intros i Hi.
  unfold slate_process at 1. cbn [se_ctx expect fold_right fst snd]. rewrite Rmult_1_r, Rplus_0_r. unfold slate_process at 1. cbn [se_nu].
  replace (Nat.min i (n - 1)) with i by lia. rewrite expect_ranking. apply sum_list_ext. intros s _. f_equal. unfold slate_q, slate_process. cbn [se_rd].
  rewrite <- expect_sumn. rewrite expect_clicks. replace (Nat.min i (n - 1)) with i by lia.
  destruct (C115_click_law (fun k => nth k (sd_att d) 0) (fun j => if Nat.ltb j (sd_L d) then slot_chance d free E W i s j else 0) (sd_L d)) as (_ & _ & _ & Ht).
  rewrite (tab_ext (sd_L d) (slot_chance d free E W i s) (fun j => if Nat.ltb j (sd_L d) then slot_chance d free E W i s j else 0)) by (intros j Hj; rewrite (proj2 (Nat.ltb_lt _ _) Hj); reflexivity).
  rewrite <- Ht. apply sum_list_ext. intros y _. f_equal. unfold total. apply sumn_ext. intros k _.
  exact (map_nth (fun b : bool => if b then 1 else 0) y false k).
Qed.

(** ** The estimators on the generated log *)

Definition evaluation_value (d : slate_ds) (n : nat) (free : nat -> nat -> R) (E : option (nat -> nat -> R)) (W : nat -> nat -> R) (all : list (list nat)) (elg : nat -> nat -> R) : R :=
  avg n (fun i => sum_list all (fun s => ranking_prob (sd_fact d) (sd_K d) (fun a => exp (elg i a)) (slots s) (sd_L d) *
    click_total (fun k => nth k (sd_att d) 0) 0 1 (tab (sd_L d) (slot_chance d free E W i s)))).

Lemma log_columns d n free E W all lg elg kd s (y : nat -> list bool) : (1 <= sd_L d)%nat -> enumerates all (slate_of (sd_fact d) (sd_K d) (sd_L d)) ->
  (forall i, (i < n)%nat -> slate_of (sd_fact d) (sd_K d) (sd_L d) (s i)) ->
  let e := slate_process d n free E W all lg elg in
  let l := slate_log e kd (tab n (fun i => (i, s i, map (fun b : bool => if b then 1 else 0) (y i)))) in
  let pr (lg : nat -> nat -> R) i j := match kd with
    | S_Slate.Standard => ranking_prob (sd_fact d) (sd_K d) (fun a => exp (lg i a)) (slots (s i)) (sd_L d)
    | S_Slate.Cascade => ranking_prob (sd_fact d) (sd_K d) (fun a => exp (lg i a)) (slots (s i)) (S j)
    | S_Slate.Independent => item_prob (sd_fact d) (sd_K d) (sd_L d) (fun a => exp (lg i a)) all j (nth j (s i) 0%nat) end in
  s_ids l = flat n (sd_L d) (fun i _ => Z.of_nat i) /\ s_pos l = flat n (sd_L d) (fun _ j => Z.of_nat j) /\
  s_rew l = map Fin (flat n (sd_L d) (fun i j => if nth j (y i) false then 1 else 0)) /\
  s_p l = map Fin (flat n (sd_L d) (pr lg)) /\ s_pe l = map Fin (flat n (sd_L d) (pr elg)).
Proof.
  intros HL Hall Hs e l pr.
  assert (D : forall k, (k < n * sd_L d)%nat -> (k / sd_L d < n)%nat /\ (k mod sd_L d < sd_L d)%nat).
  { intros k Hk. split; [apply Nat.div_lt_upper_bound; lia|apply Nat.mod_upper_bound; lia]. }
  assert (Hw : forall (lg : nat -> nat -> R) i a, 0 < exp (lg i a)) by (intros; apply exp_pos).
  assert (HP : forall (lg : nat -> nat -> R) k, (k < n * sd_L d)%nat ->
     propensity kd (k mod sd_L d) (ranking_dist (sd_fact d) (sd_K d) (sd_L d) (fun a => exp (lg (Nat.min (k / sd_L d) (n - 1)) a)) all) (s (k / sd_L d)%nat) = pr lg (k / sd_L d)%nat (k mod sd_L d)).
  { intros lg0 k Hk. destruct (D k Hk) as [D1 D2]. replace (Nat.min (k / sd_L d) (n - 1)) with (k / sd_L d)%nat by lia. rewrite propensity_ranking by auto. reflexivity. }
  unfold l, slate_log, s_ids, s_pos, s_rew, s_p, s_pe, e, slate_process. cbn [S_Slate.se_n S_Slate.se_L sl_n sl_id sl_pos sl_r sl_p sl_pe se_mu se_nu]. rewrite !flat_F.
  rewrite (flat_Z n (sd_L d) (fun i _ => i)), (flat_Z n (sd_L d) (fun _ j => j)).
  split; [reflexivity|]. split; [reflexivity|]. unfold tabF. split; [|split]; apply tab_ext; intros k Hk; destruct (D k Hk) as [D1 D2]; rewrite nth_error_tab by exact D1; f_equal.
  - exact (map_nth (fun b : bool => if b then 1 else 0) (y (k / sd_L d)%nat) false (k mod sd_L d)).
  - apply HP, Hk.
  - apply HP, Hk.
Qed.

(** On every draw the batch and the evaluation policy's propensities exist, and the estimators return numbers; their means over the
    draws are the value of the evaluation policy under the click model. *)
Theorem C154_estimators : forall d n free E lg W context base beh tn coin item clip all elg,
  setting d n free E lg W context base beh -> sd_binary d = true -> fair_coin coin -> possible_coin coin ->
  enumerates all (slate_of (sd_fact d) (sd_K d) (sd_L d)) -> (item = true -> forall c, clip = Some c -> c <= 700) ->
  let L := sd_L d in
  let generate us vs := slate_obtain d (tabR2 (sd_K d) L free) base beh tn (Z.of_nat n) context item clip (tabR2 n L (fun i j => us (i * L + j)%nat))
                          (fun i j p => coin (vs (i * L + j)%nat) p) in
  let evaluate (est : list Z -> arr1 -> list Z -> arr1 -> arr1 -> res num) (col : pscores -> list R) us vs (x : R) :=
    exists b ps, generate us vs = Ok b /\ obtain_pscore d (sb_action b) (tabR2 n (sd_K d) elg) item clip = Ok ps /\
      est (sb_slate b) (map Fin (sb_reward b)) (sb_position b) (map Fin (col (sb_ps b))) (map Fin (col ps)) = Ok (Fin x) in
  let unbiased est col := exists X, (forall us vs, unit_draws us -> unit_draws vs -> evaluate est col us vs (X us vs)) /\
                                    uniform_mean2 (n * L) X (evaluation_value d n free E W all elg) in
  unbiased sips_value ps_joint /\
  (cascade_rewards d E -> unbiased rips_value ps_cascade) /\
  (own_rewards d E -> item = true -> clip = None \/ sd_fact d = true ->
     unbiased iips_value (fun ps => match ps_item ps with Some c => c | None => [] end)).
Proof.
  intros d n free E lg W context base beh tn coin item clip all elg Hset Hb Hcoin Hposs Hall Hclip L generate evaluate unbiased.
  destruct (C154_law d n free E lg W context base beh tn coin item clip all elg Hset Hb Hcoin Hposs Hall Hclip) as (Hok & Hin & Hlaw).
  fold L in Hok, Hin, Hlaw. set (e := slate_process d n free E W all (logits_of d lg) elg) in *.
  pose proof Hset as [HL Hfit _ _ _ [Hn Hctx] _ _ _].
  assert (Hv : slate_policy_value e = evaluation_value d n free E W all elg) by apply process_value.
  assert (Tr : forall kd est col, 
     expects (slate_logs e) (fun o => let l := slate_log e kd o in est (s_ids l) (s_rew l) (s_pos l) (s_p l) (s_pe l)) (slate_policy_value e) ->
     (forall us vs b ps, unit_draws us -> unit_draws vs -> generate us vs = Ok b -> obtain_pscore d (sb_action b) (tabR2 n (sd_K d) elg) item clip = Ok ps ->
        let l := slate_log e kd (slate_rounds n L b) in s_p l = map Fin (col (sb_ps b)) /\ s_pe l = map Fin (col ps)) -> unbiased est col).
  { intros kd est col (g & Hg & Hmean) Hcol. exists (fun us vs => match generate us vs with Ok b => g (slate_rounds n L b) | Err _ => 0 end). split.
    - intros us vs Hus Hvs. destruct (Hin us vs Hus Hvs) as (b & Eb & p & Hp & Hp0). fold (generate us vs) in Eb.
      destruct (generated d n free E lg W context base beh tn coin item clip all us vs Hset Hb Hus Hall Hclip) as (Hs & b' & Eb' & Hsl & Hpo & Ha & Hr & _).
      fold L in Eb', Hsl, Hpo, Hs. fold (generate us vs) in Eb'. rewrite Eb in Eb'. injection Eb' as <-.
      set (s := drawn_slate d (logits_of d lg) us) in *. set (y := drawn_clicks d free E W coin s vs) in *.
      destruct (C62_pscores d n elg s all item clip Hn HL Hs Hall Hclip) as (ps & Eps & _). rewrite <- Ha in Eps.
      exists b, ps. split; [exact Eb|]. split; [exact Eps|]. rewrite Eb. specialize (Hg _ _ Hp Hp0). cbv zeta in Hg.
      destruct (Hcol us vs b ps Hus Hvs Eb Eps) as [C1 C2]. rewrite C1, C2 in Hg. rewrite <- Hg.
      assert (Er : slate_rounds n L b = tab n (fun i => (i, s i, map (fun b : bool => if b then 1 else 0) (y i)))).
      { apply rounds_of_batch; auto; intros i Hi; [apply Hs, Hi|apply click_run_length]. }
      rewrite Er. destruct (log_columns d n free E W all (logits_of d lg) elg kd s y HL Hall Hs) as (Q1 & Q2 & Q3 & _). fold e L in Q1, Q2, Q3. rewrite Q1, Q2, Q3, Hsl, Hpo, Hr. reflexivity.
    - rewrite <- Hv, <- Hmean. apply Hlaw. }
  assert (Co : forall kd col us vs b ps, unit_draws us -> generate us vs = Ok b -> obtain_pscore d (sb_action b) (tabR2 n (sd_K d) elg) item clip = Ok ps ->
     (kd = S_Slate.Standard /\ col = ps_joint \/ kd = S_Slate.Cascade /\ col = ps_cascade \/
      kd = S_Slate.Independent /\ col = (fun ps => match ps_item ps with Some c => c | None => [] end) /\ item = true /\ (clip = None \/ sd_fact d = true)) ->
     let l := slate_log e kd (slate_rounds n L b) in s_p l = map Fin (col (sb_ps b)) /\ s_pe l = map Fin (col ps)).
  { intros kd col us vs b ps Hus Eb Eps Hk l.
    destruct (generated d n free E lg W context base beh tn coin item clip all us vs Hset Hb Hus Hall Hclip) as (Hs & b' & Eb' & Hsl & Hpo & Ha & Hr & Hc & Hj & Hi).
    fold L in Eb', Hsl, Hpo, Hs. fold (generate us vs) in Eb'. rewrite Eb in Eb'. injection Eb' as <-.
    set (s := drawn_slate d (logits_of d lg) us) in *. set (y := drawn_clicks d free E W coin s vs) in *.
    destruct (C62_pscores d n elg s all item clip Hn HL Hs Hall Hclip) as (ps' & Eps' & Hc' & Hj' & Hi'). rewrite <- Ha, Eps in Eps'. injection Eps' as <-.
    assert (Er : slate_rounds n L b = tab n (fun i => (i, s i, map (fun b : bool => if b then 1 else 0) (y i)))).
    { apply rounds_of_batch; auto; intros i Hi0; [apply Hs, Hi0|apply click_run_length]. }
    unfold l. rewrite Er. destruct (log_columns d n free E W all (logits_of d lg) elg kd s y HL Hall Hs) as (_ & _ & _ & Q4 & Q5). fold e L in Q4, Q5. rewrite Q4, Q5.
    destruct Hk as [[-> ->]|[[-> ->]|(-> & -> & Hit & Hcl)]].
    - rewrite Hj, Hj'. split; reflexivity.
    - rewrite Hc, Hc'. split; reflexivity.
    - rewrite Hi, Hi', Hit. fold L.
      assert (X : forall (lg : nat -> nat -> R) i j, (fun a => exp (if (Nat.eqb j 0 || sd_fact d)%bool then lg i a else clipped clip (lg i a))) = (fun a => exp (lg i a))).
      { intros lg0 i j. destruct Hcl as [-> | ->]; [cbn [clipped]; destruct (_ || _)%bool; reflexivity|rewrite Bool.orb_true_r; reflexivity]. }
      split; f_equal; apply flat_ext; intros i j Hi0 Hj0; rewrite X; [|reflexivity].
      destruct Hset as [_ _ _ _ _ _ _ Hbeh _]. destruct beh as [bh|], lg as [lg0|]; try contradiction; [reflexivity|]. cbn [logits_of].
      apply (C62_uniform_slot (sd_fact d) (sd_K d) L (exp (1 / INR (sd_K d))) all j); auto using exp_pos.
      + intros Ef. rewrite Ef in Hfit. exact Hfit.
      + destruct (Hs i Hi0) as (Hlen & Hlt & _). apply Hlt, nth_In. unfold L in *. lia. }
  split; [|split].
  - apply (Tr S_Slate.Standard). + apply C34_standard_unbiased; auto. apply process_support; auto.
    + intros us vs b ps Hus Hvs Eb Eps. apply (Co S_Slate.Standard _ us vs); auto.
  - intros Hr. apply (Tr S_Slate.Cascade). + apply C36_cascade_unbiased; auto. apply process_support; auto. apply process_cascade; auto.
    + intros us vs b ps Hus Hvs Eb Eps. apply (Co S_Slate.Cascade _ us vs); auto.
  - intros Hr Hit Hcl. apply (Tr S_Slate.Independent). + apply C35_independent_unbiased; auto. apply process_support; auto. apply process_own; auto.
    + intros us vs b ps Hus Hvs Eb Eps. exact (Co S_Slate.Independent _ us vs b ps Hus Eb Eps (or_intror (or_intror (conj eq_refl (conj eq_refl (conj Hit Hcl)))))).
Qed.

(** ** The dataset's own ground truth *)

Lemma stored_small K a : (K <= 128)%nat -> (a < K)%nat -> stored K a = a.
Proof. intros HK Ha. unfold stored. rewrite Nat.mod_small by lia. rewrite (proj2 (Nat.ltb_lt _ _)) by lia. reflexivity. Qed.
Lemma stored_slate fact K L s : (K <= 128)%nat -> slate_of fact K L s -> map (stored K) s = s.
Proof. intros HK (_ & Ha & _). rewrite <- (map_id s) at 2. apply map_ext_in. intros a Hin. apply stored_small; auto. Qed.

Lemma click_total_plain att : forall x pos D, (forall k, (pos < k < pos + length x)%nat -> att k = 1) -> click_total att pos D x = D * Rsum x.
Proof.
  induction x as [|p x IH]; intros pos D Ha; cbn [click_total]; [unfold Rsum; cbn; ring|]. change (Rsum (p :: x)) with (p + Rsum x). cbn [length] in Ha.
  destruct x as [|q x]; [cbn [click_total]; unfold Rsum; cbn; ring|].
  rewrite !IH by (intros k Hk; apply Ha; cbn [length] in *; lia). rewrite (Ha (S pos)) by (cbn [length]; lia). ring.
Qed.

(** With a per-round base reward function, at most 128 actions, one enumeration batch, and a click model that is off or at most two
    slots, the value the estimators estimate is what [calc_ground_truth_policy_value] reports. *)
Theorem C154_ground_truth : forall d n free free' E lg W c g beh all elg,
  setting d n free (Some E) lg W (tab n c) (Some (map g)) beh -> sd_binary d = true -> evaluation d n E W c g all ->
  (Z.of_nat n * Z.of_nat (length all) * Z.of_nat (sd_L d) <= 10 ^ 7)%Z ->
  (forall k, (0 < k < sd_L d)%nat -> nth k (sd_att d) 0 = 1) \/ (sd_L d <= 2)%nat ->
  slate_ground_truth d free' (Some (map g)) (tab n c) (tabR2 n (sd_K d) elg) = Ok (evaluation_value d n free (Some E) W all elg).
Proof.
  intros d n free free' E lg W c g beh all elg _ Hb Hev Hsmall Hcl. pose proof Hev as [HL _ HK _ _ _ _ _ Hall].
  destruct (C116_true_value d free' n E W c g all elg Hev Hsmall) as (T1 & T2 & _). unfold evaluation_value, avg.
  assert (Hch : forall i s j, In s all -> slot_chance d free (Some E) W i s j = slot_mean (sd_binary d) (sd_structure d) W (E (i / sd_L d)%nat) (sd_L d) (slots s) j * nth j (sd_exam d) 0).
  { intros i s j Hs. unfold slot_chance. rewrite (stored_slate (sd_fact d) (sd_K d) (sd_L d)) by (try apply Hall; auto). reflexivity. }
  destruct Hcl as [Ha|H2].
  - rewrite (T1 (or_intror Ha)). f_equal. f_equal. apply sumn_ext. intros i Hi. apply sum_list_ext. intros s Hs. f_equal.
    rewrite click_total_plain by (intros k Hk; rewrite tab_length in Hk; apply Ha; lia). rewrite Rmult_1_l, Rsum_tab. apply sumn_ext. intros j Hj. symmetry. apply Hch, Hs.
  - rewrite (T2 Hb H2). f_equal. f_equal. apply sumn_ext. intros i Hi. apply sum_list_ext. intros s Hs. f_equal. f_equal. apply tab_ext. intros j Hj. symmetry. apply Hch, Hs.
Qed.

(** ** Examples: a cascade with three actions and two slots, and an independent one without click model *)
Example C154_example :
  let c := fun i : nat => [INR i] in
  let E := fun (i a : nat) => (INR a + 1) / 8 in
  let g := fun _ : list R => tab 3 (fun a => (INR a + 1) / 8) in
  let W := fun a b : nat => if Nat.eqb a b then 0 else - exp (-1) in
  let all := choices false (seq 0 3) 2 in
  let d := mkSd 3 2 1 true StandardDecay [1; 1] [1; 1 / 2] (tabR2 2 2 W) false in
  let d' := mkSd 3 2 1 true M_SlateData.Independent [1; 1] [1; 1] (tabR2 2 2 W) false in
  let coin := fun v p => Rltb v p in
  fair_coin coin /\ possible_coin coin /\
  (setting d 2 (fun a j => 1 / 3) (Some E) (Some (fun i a => INR a)) W (tab 2 c) (Some (map g)) (Some (fun _ => tabR2 2 3 (fun i a => INR a))) /\
   evaluation d 2 E W c g all /\ enumerates all (slate_of false 3 2) /\ ~ cascade_rewards d (Some E)) /\
  (setting d' 2 (fun a j => 1 / 3) (Some E) None W (tab 2 c) (Some (map g)) None /\ cascade_rewards d' (Some E) /\ own_rewards d' (Some E)).
Proof.
  cbv zeta. split; [apply less_is_coin|]. split; [apply less_is_possible|].
  assert (HE : forall a : nat, (a < 3)%nat -> 0 < (INR a + 1) / 8 < 1) by (intros [|[|[|a]]] Ha; cbn; lra || lia).
  split.
  - split; [|split; [|split; [apply choices_enumerate|]]].
    + constructor; cbn [sd_K sd_L sd_fact sd_exam sd_att sd_W sd_structure sd_binary]; try lia; try reflexivity.
      * split; [reflexivity|]. intros [|[|k]] Hk; cbn; lra || lia.
      * intros [|[|[|k]]]; cbn; lra.
      * split; [lia|reflexivity].
      * intros _. split; [intros; lra|]. intros i a _ Ha. apply HE, Ha.
    + constructor; cbn [sd_K sd_L sd_fact sd_exam sd_att sd_W sd_structure sd_binary sd_dim]; try lia; try reflexivity. apply choices_enumerate.
    + intros [H|[H|H]]; discriminate.
  - split; [|split].
    + constructor; cbn [sd_K sd_L sd_fact sd_exam sd_att sd_W sd_structure sd_binary]; try lia; try reflexivity.
      * split; [reflexivity|]. intros [|[|k]] Hk; cbn; lra || lia.
      * intros [|[|[|k]]]; cbn; lra.
      * split; [lia|reflexivity].
      * intros _. split; [intros; lra|]. intros i a _ Ha. apply HE, Ha.
    + right. right. reflexivity.
    + split; [reflexivity|]. intros [|[|k]] Hk; cbn in *; lra || lia.
Qed.

Print Assumptions C154_law.
Print Assumptions C154_estimators.
Print Assumptions C154_ground_truth.
