(** * P_Drift: theorems about the coefficient drifter (C79, C80) and the delay sampler (C81). *)

From Coq Require Import Reals List ZArith Lia Lra Bool.
From Verif Require Import Num NpList M_Drift M_Sim S_Base S_Drift S_Sim L_Num L_Base L_SlateEst L_Drift L_Sim.
Import ListNotations.
Open Scope R_scope.

(** Data for the examples: generator states are counters, the [k]-th sample is constant [k]. *)
Definition ex_sample (da dc g : nat) : nat * coef := (S g, [repeat (INR g) dc; repeat (INR g) da; repeat (INR g) (dc * da)]).
Definition ex_binom (g : nat) (p : list R) : nat * list R := (g, map (fun _ => 1) p).

(** ** C80: what a drifter returns *)

(** Every request is answered, with one row per round; the row of a round mixes the base, the current and the
    next coefficient set of its drift interval.  The sets are the successive samples, or two alternating ones
    for a seasonal drifter; [served_weight] is the weight of the next set. *)
Theorem C80_rows_exact {G} (sample : nat -> nat -> G -> G * coef) binom I T seasonal w da dc g requests fuel :
  (1 <= I)%nat -> (1 <= da)%nat -> (1 <= dc)%nat -> (forall n, In n requests -> (1 <= n <= fuel)%nat) ->
  exists d, drifter_new sample I T false seasonal w (Some da) (Some dc) g = (d, Ok tt) /\
    serve sample binom fuel d requests =
    Some (Ok (served I T w (fun k => sampled (sample da dc) g (phase seasonal k)) 0 requests)).
Proof.
  intros HI Ha Hc Hr. eexists. split. apply new_at; auto. apply (serve_at sample binom I T seasonal w da dc g HI fuel requests 0). auto.
Qed.

(** The weight of the next set is in [0, T/(T+1)]. *)
Theorem C80_weights_below_one I T N n i : (1 <= I)%nat -> (i < n)%nat ->
  0 <= served_weight I T N n i <= INR T / (INR T + 1).
Proof.
  intros HI Hi. pose proof (pos_INR T) as HT.
  assert (B : forall j, (j < I)%nat -> 0 <= transition_weight I T j <= INR T / (INR T + 1)).
  { intros j Hj. unfold transition_weight. pose proof (pos_INR (j + 1 + T - I)).
    assert (INR (j + 1 + T - I) <= INR T) by (apply le_INR; lia).
    assert (0 < / (INR T + 1)) by (apply Rinv_0_lt_compat; lra). unfold Rdiv. split. nra. apply Rmult_le_compat_r; lra. }
  unfold served_weight. pose proof (Nat.mod_upper_bound (N + i) I ltac:(lia)). destruct (Nat.ltb_spec ((N + i) / I) ((N + n) / I)); apply B; auto.
  pose proof (Nat.div_mod (N + i) I ltac:(lia)). pose proof (Nat.div_mod (N + n) I ltac:(lia)).
  assert ((N + i) / I <= (N + n) / I)%nat by (apply Nat.div_le_mono; lia). assert (E : ((N + i) / I = (N + n) / I)%nat) by lia.
  rewrite E in *. pose proof (Nat.mod_upper_bound (N + n) I ltac:(lia)). lia.
Qed.

Definition all_in (lo hi : R) (c : coef) : Prop := forall v x, In v c -> In x v -> lo <= x <= hi.

Lemma mix_in lo hi w b x y t : 0 <= w <= 1 -> 0 <= t <= 1 ->
  all_in lo hi b -> all_in lo hi x -> all_in lo hi y -> all_in lo hi (mix_coef w b x y t).
Proof.
  intros Hw Ht Hb Hx Hy v e Hv He. unfold mix_coef in Hv. apply in_map_iff in Hv as ([[vb vx] vy] & <- & Hv). cbn [fst snd] in He.
  pose proof (in_combine_l _ _ _ _ Hv) as H1. pose proof (in_combine_r _ _ _ _ Hv) as Q3.
  pose proof (in_combine_l _ _ _ _ H1) as Q1. pose proof (in_combine_r _ _ _ _ H1) as Q2.
  unfold mix in He. apply in_map_iff in He as ([[eb ex] ey] & <- & He). cbn [fst snd].
  pose proof (in_combine_l _ _ _ _ He) as E1. pose proof (in_combine_r _ _ _ _ He) as F3.
  pose proof (in_combine_l _ _ _ _ E1) as F1. pose proof (in_combine_r _ _ _ _ E1) as F2.
  specialize (Hb _ _ Q1 F1). specialize (Hx _ _ Q2 F2). specialize (Hy _ _ Q3 F3).
  assert (A : lo <= (1 - t) * ex + t * ey <= hi) by nra.
  replace (w * eb + ex * ((1 - w) * (1 - t)) + ey * ((1 - w) * t)) with (w * eb + (1 - w) * ((1 - t) * ex + t * ey)) by ring. nra.
Qed.

(** For either transition type: a request of [n >= 1] rounds returns [n] rows, and if all sampled
    coefficients lie in an interval so do all returned ones (base weight in [0,1], the binomial draws in
    [0,1]). *)
Definition well_formed {G} (lo hi : R) (d : drifter G) : Prop :=
  (1 <= dr_interval d)%nat /\ (1 <= dr_available d)%nat /\ 0 <= dr_base_weight d <= 1 /\ (exists da dc, dr_dim_action d = Some da /\ dr_dim_context d = Some dc) /\
  exists a b c, dr_coefs d = [a; b] /\ dr_base d = Some c /\ all_in lo hi a /\ all_in lo hi b /\ all_in lo hi c.

Theorem C80_shape_and_range {G} (sample : nat -> nat -> G -> G * coef) binom lo hi fuel d n :
  (forall da dc g, all_in lo hi (snd (sample da dc g))) ->
  (forall g p, length (snd (binom g p)) = length p /\ forall x, In x (snd (binom g p)) -> 0 <= x <= 1) ->
  well_formed lo hi d -> (1 <= n <= fuel)%nat ->
  exists d' rows, get_coefficients sample binom fuel d n None None = Some (d', Ok rows) /\
    length rows = n /\ (forall r, In r rows -> all_in lo hi r) /\ well_formed lo hi d'.
Proof.
  intros Hs Hb Hd Hn.
  assert (A : forall d r, well_formed lo hi d -> (r <= dr_available d)%nat ->
     exists g rows, append_current_coefs binom d r = Ok (set_rng d g, rows) /\ length rows = r /\ forall x, In x rows -> all_in lo hi x).
  { clear -Hb. intros d r Hd Hr. destruct Hd as (HI & HA & Hw & Hdim & a & b & c & E1 & E2 & Ra & Rb & Rc).
    unfold append_current_coefs. rewrite E1, E2. rewrite steps_tab by auto. rewrite map_tab.
    set (W := tab r (fun i => INR (i + 1 + dr_transition d - r) / (INR (dr_transition d) + 1))).
    set (gw := if dr_weighted d then binom (dr_rng d) W else (dr_rng d, W)).
    assert (LW : length (snd gw) = r /\ forall x, In x (snd gw) -> 0 <= x <= 1).
    { subst gw. destruct (dr_weighted d). destruct (Hb (dr_rng d) W) as [L B]. split; auto. rewrite L. apply tab_length.
      split. apply tab_length. intros x Hx. apply In_tab in Hx as (i & Hi & <-). pose proof (pos_INR (dr_transition d)).
      pose proof (pos_INR (i + 1 + dr_transition d - r)).
      assert (INR (i + 1 + dr_transition d - r) <= INR (dr_transition d)) by (apply le_INR; lia).
      assert (P : 0 < INR (dr_transition d) + 1) by lra. assert (0 < / (INR (dr_transition d) + 1)) by (apply Rinv_0_lt_compat; auto).
      unfold Rdiv. split. nra. apply Rmult_le_reg_r with (INR (dr_transition d) + 1); auto. rewrite Rmult_assoc, Rinv_l by lra. lra. }
    destruct LW as [L B]. exists (fst gw), (map (mix_coef (dr_base_weight d) c a b) (snd gw)). split; [reflexivity|]. rewrite map_length. split; auto.
    intros x Hx. apply in_map_iff in Hx as (t & <- & Ht). apply mix_in; auto. }
  assert (U : forall d, well_formed lo hi d -> exists q g, update_coef sample d = (set_coefs d q (dr_base d) g, Ok tt) /\
     well_formed lo hi (set_available (set_coefs d q (dr_base d) g) (dr_interval d))).
  { clear -Hs. intros d (HI & HA & Hw & (da & dc & D1 & D2) & a & b & c & E1 & E2 & Ra & Rb & Rc).
    unfold update_coef. rewrite E1, E2. cbn [length Nat.eqb]. rewrite andb_true_r. destruct (dr_seasonal d).
    - exists [b; a], (dr_rng d). split; [reflexivity|]. unfold well_formed. cbn. repeat split; try tauto; try lia. eauto. exists b, a, c. rewrite ?E2. auto.
    - unfold sample_dims. rewrite D1, D2. destruct (sample da dc (dr_rng d)) as [g2 x] eqn:E. exists [b; x], g2. split; [reflexivity|].
      unfold well_formed. cbn. repeat split; try tauto; try lia. eauto. exists b, x, c. rewrite ?E2. split; [reflexivity|]. split; [auto|]. split; [auto|]. split; [|auto].
      replace x with (snd (sample da dc (dr_rng d))) by (rewrite E; reflexivity). apply Hs. }
  assert (Lp : forall n fuel d acc, well_formed lo hi d -> (n <= fuel)%nat -> (forall r, In r acc -> all_in lo hi r) ->
     exists d' rows, drift_loop sample binom fuel d n acc = Some (d', Ok rows) /\ length rows = (length acc + n)%nat /\
       (forall r, In r rows -> all_in lo hi r) /\ well_formed lo hi d').
  { clear -A U. induction n as [n IH] using (well_founded_induction Wf_nat.lt_wf). intros fuel d acc Hd Hf Hacc. destruct n as [|n].
    - exists d, acc. split; [destruct fuel; reflexivity|split; [lia|split; auto]].
    - destruct fuel as [|fuel]; [lia|]. cbn [drift_loop]. set (m := S n) in *. assert (HA : (1 <= dr_available d)%nat) by (apply Hd).
      destruct (Nat.leb_spec (dr_available d) m) as [H|H].
      + destruct (A d (dr_available d) Hd (le_n _)) as (g & rows & -> & L & B).
        assert (W1 : well_formed lo hi (set_rng d g)) by exact Hd. destruct (U _ W1) as (q & g' & -> & W2). cbn [fst snd].
        destruct (IH (m - dr_available d)%nat ltac:(lia) fuel _ (acc ++ rows) W2 ltac:(lia)) as (d' & rows' & E & L' & B' & W').
        intros r Hr. apply in_app_or in Hr as [Hr|Hr]; auto.
        exists d', rows'. split; [exact E|]. rewrite L', app_length, L. split; [lia|split; auto].
      + destruct (A d m Hd ltac:(lia)) as (g & rows & -> & L & B).
        exists (set_available (set_rng d g) (dr_available d - m)), (acc ++ rows).
        split; [destruct fuel; reflexivity|]. rewrite app_length, L. split; [auto|]. split.
        intros r Hr. apply in_app_or in Hr as [Hr|Hr]; auto.
        destruct Hd as (H1 & H2 & H3). repeat split; cbn; try tauto; try lia; apply H3. }
  unfold get_coefficients. cbn [is_set andb]. pose proof Hd as (_ & _ & _ & _ & a & b & c & E1 & _). rewrite E1. cbn [fst snd].
  destruct (Lp n fuel d [] Hd ltac:(lia) ltac:(intros r [])) as (d' & rows & -> & L & B & W). exists d', rows. simpl in L.
  destruct rows; simpl in L; [lia|]. auto.
Qed.

(** With [drift_interval = 0] a request never returns. *)
Theorem C80_zero_interval_never_returns {G} (sample : nat -> nat -> G -> G * coef) binom T seasonal weighted w da dc g n :
  (1 <= da)%nat -> (1 <= dc)%nat -> (1 <= n)%nat ->
  exists d, drifter_new sample 0 T weighted seasonal w (Some da) (Some dc) g = (d, Ok tt) /\
    forall fuel, get_coefficients sample binom fuel d n None None = None.
Proof.
  intros Ha Hc Hn. destruct da as [|da'] eqn:Ea; [lia|]. destruct dc as [|dc'] eqn:Ec; [lia|]. rewrite <- Ea, <- Ec in *.
  assert (L : forall fuel a b c g acc,
     drift_loop sample binom fuel (mkDrifter 0 T weighted seasonal w (Some da) (Some dc) 0 [a; b] (Some c) g) n acc = None).
  { destruct n as [|n]; [lia|]. induction fuel as [|fuel IH]; intros a b c g0 acc; [reflexivity|].
    cbn [drift_loop dr_available Nat.leb]. unfold append_current_coefs. cbn [dr_coefs dr_base dr_available].
    match goal with |- context[set_rng ?x ?g] => generalize g; intros g1 end. 
    unfold set_rng. cbn [dr_interval dr_transition dr_weighted dr_seasonal dr_base_weight dr_dim_action dr_dim_context dr_available dr_coefs dr_base].
    unfold update_coef. cbn [dr_base dr_rng dr_coefs length Nat.eqb dr_seasonal]. rewrite andb_true_r. destruct seasonal.
    - cbn -[drift_loop]. apply IH.
    - unfold sample_dims. cbn [dr_dim_action dr_dim_context]. destruct (sample da dc g1) as [g2 x]. cbn -[drift_loop]. apply IH. }
  unfold drifter_new. replace (is_set (Some da) && is_set (Some dc))%bool with true by (rewrite Ea, Ec; reflexivity).
  unfold update_coef. cbn [dr_base dr_rng]. unfold sample_dims. cbn [dr_dim_action dr_dim_context]. destruct (sample da dc g) as [g1 b].
  cbn [dr_coefs length Nat.eqb]. rewrite andb_false_r. destruct (sample da dc g1) as [g2 c]. eexists. split; [reflexivity|].
  intros fuel. unfold get_coefficients, set_coefs. cbn -[drift_loop]. rewrite L. reflexivity.
Qed.

(** A request for no rounds never returns coefficients, whatever the state of the drifter. *)
Theorem C80_no_rounds {G} (sample : nat -> nat -> G -> G * coef) binom fuel d dc da :
  exists d' e, get_coefficients sample binom fuel d 0 dc da = Some (d', Err e) /\
    (dr_coefs d <> [] -> da = None \/ dc = None -> e = ValueError).
Proof.
  unfold get_coefficients.
  match goal with |- context [match ?x with Ok _ => _ | Err _ => _ end] => destruct x as [d1|e] eqn:E end.
  - destruct (dr_coefs d1) as [|c cs] eqn:Ec.
    + destruct (update_coef sample d1) as [d2 [[]|e]] eqn:Eu; cbn [fst snd drift_loop].
      * exists d2, ValueError. split; auto. destruct fuel; reflexivity.
      * exists d2, e. split; [reflexivity|]. intros Hne [-> | ->]; cbn [is_set andb] in E; [|rewrite andb_false_r in E]; injection E as <-; contradiction.
    + cbn [fst snd]. exists d1, ValueError. split; auto. destruct fuel; reflexivity.
  - exists d, e. split; [reflexivity|]. intros Hne [-> | ->]; cbn [is_set andb] in E; [|rewrite andb_false_r in E]; discriminate.
Qed.

Example C80_ex : (1 <= 3)%nat /\ (forall n, In n [2; 5]%nat -> (1 <= n <= 5)%nat) /\
  (forall da dc g, all_in 0 (INR g) (snd (ex_sample da dc g))) /\
  (forall g p, length (snd (ex_binom g p)) = length p /\ forall x, In x (snd (ex_binom g p)) -> 0 <= x <= 1) /\
  well_formed 0 1 (fst (drifter_new ex_sample 3 2 true true (1/2) (Some 1%nat) (Some 2%nat) 0%nat)).
Proof.
  split; [lia|]. split. intros n [<-|[<-|[]]]; lia.
  assert (Q : forall g n x, In x (repeat (INR g) n) -> x = INR g) by (intros g n x H; apply (repeat_spec _ _ _ H)).
  split. intros da dc g v x [<-|[<-|[<-|[]]]] Hx; rewrite (Q _ _ _ Hx); pose proof (pos_INR g); lra.
  split. intros g p. cbn. rewrite map_length. split; auto. intros x Hx. apply in_map_iff in Hx as (? & <- & _). lra.
  cbn. unfold well_formed. cbn. repeat split; try lia; try lra. eauto.
  exists [[0;0];[0];[0;0]], [[1;1];[1];[1;1]], [[0;0];[0];[0;0]].
  repeat split; auto; try (cbn in *; repeat match goal with H : _ \/ _ |- _ => destruct H as [H|H] | H : False |- _ => destruct H end; subst; cbn in *;
    repeat match goal with H : _ \/ _ |- _ => destruct H as [H|H] | H : False |- _ => destruct H end; lra).
Qed.

(** ** C79: splitting requests *)

(** Without a transition period the rows do not depend on how the rounds are split into requests: row [p] is
    the mixture of the base and the coefficient set of the interval containing round [p]. *)
Lemma served_without_transition I w c : (1 <= I)%nat -> forall requests N,
  concat (served I 0 w c N requests) =
  tab (total_rounds requests) (fun p => mix_coef w (c 0%nat) (c ((N + p) / I)%nat) (c (S ((N + p) / I))) 0).
Proof.
  intros HI. induction requests as [|n l IH]; intros N; [reflexivity|].
  cbn [served concat total_rounds fold_right]. fold (total_rounds l). rewrite tab_app, IH. f_equal.
  - apply tab_ext. intros i Hi. unfold served_row. f_equal. pose proof (C80_weights_below_one I 0 N n i HI Hi) as B. simpl INR in B. lra.
  - apply tab_ext. intros i _. rewrite Nat.add_assoc. reflexivity.
Qed.
Theorem C79_split_invariance {G} (sample : nat -> nat -> G -> G * coef) binom I seasonal w da dc g l1 l2 fuel :
  (1 <= I)%nat -> (1 <= da)%nat -> (1 <= dc)%nat ->
  (forall n, In n (l1 ++ l2) -> (1 <= n <= fuel)%nat) -> total_rounds l1 = total_rounds l2 ->
  exists d r1 r2, drifter_new sample I 0 false seasonal w (Some da) (Some dc) g = (d, Ok tt) /\
    serve sample binom fuel d l1 = Some (Ok r1) /\ serve sample binom fuel d l2 = Some (Ok r2) /\ concat r1 = concat r2.
Proof.
  intros HI Ha Hc Hr Ht.
  destruct (C80_rows_exact sample binom I 0 seasonal w da dc g l1 fuel HI Ha Hc) as (d & E & S1); [intros; apply Hr, in_or_app; auto|].
  destruct (C80_rows_exact sample binom I 0 seasonal w da dc g l2 fuel HI Ha Hc) as (d' & E' & S2); [intros; apply Hr, in_or_app; auto|].
  assert (d' = d) by congruence. subst d'. do 3 eexists. split; [exact E|]. split; [exact S1|]. split; [exact S2|].
  rewrite !served_without_transition by auto. rewrite Ht. reflexivity.
Qed.
Example C79_ex : (forall n, In n ([2; 5] ++ [7])%nat -> (1 <= n <= 7)%nat) /\ total_rounds [2; 5]%nat = total_rounds [7]%nat.
Proof. split. intros n [<-|[<-|[<-|[]]]]; lia. reflexivity. Qed.

(** With a transition period it does: the first round requested alone gets the weight of the last round of
    the interval, [T/(T+1)], while requested together with the rest of the interval it gets the intended,
    smaller one; whenever the first two coefficient sets differ in their first entry the returned rows
    differ. *)
Theorem C79_transition_breaks_split {G} (sample : nat -> nat -> G -> G * coef) binom I T seasonal w da dc g fuel :
  (2 <= I <= fuel)%nat -> (1 <= T)%nat -> (1 <= da)%nat -> (1 <= dc)%nat -> w <> 1 ->
  hd 0 (hd [] (sampled (sample da dc) g 0)) <> hd 0 (hd [] (sampled (sample da dc) g 1)) ->
  hd [] (sampled (sample da dc) g 0) <> [] -> hd [] (sampled (sample da dc) g 1) <> [] ->
  exists d r1 r2, drifter_new sample I T false seasonal w (Some da) (Some dc) g = (d, Ok tt) /\
    serve sample binom fuel d [1%nat] = Some (Ok [r1]) /\ serve sample binom fuel d [I] = Some (Ok [r2]) /\
    hd 0 (hd [] (hd [] r1)) <> hd 0 (hd [] (hd [] r2)).
Proof.
  intros HI HT Ha Hc Hw Hd N0 N1.
  destruct (C80_rows_exact sample binom I T seasonal w da dc g [1%nat] fuel ltac:(lia) Ha Hc) as (d & E & S1); [intros n [<-|[]]; lia|].
  destruct (C80_rows_exact sample binom I T seasonal w da dc g [I] fuel ltac:(lia) Ha Hc) as (d' & E' & S2); [intros n [<-|[]]; lia|].
  assert (d' = d) by congruence. subst d'. do 3 eexists. split; [exact E|]. split; [exact S1|]. split; [exact S2|].
  destruct I as [|[|I']] eqn:EI; try lia. rewrite <- EI in *. rewrite !tab_S_first. cbn [hd].
  assert (HT2 : tab I (served_row I T w (fun k => sampled (sample da dc) g (phase seasonal k)) 0 I) =
     served_row I T w (fun k => sampled (sample da dc) g (phase seasonal k)) 0 I 0 :: tab (S I') (fun i => served_row I T w (fun k => sampled (sample da dc) g (phase seasonal k)) 0 I (S i))) by (rewrite EI at 1; apply tab_S_first).
  rewrite HT2. cbn [hd]. unfold served_row. rewrite !Nat.add_0_l. rewrite Nat.div_0_l by lia.
  assert (W1 : served_weight I T 0 1 0 = INR T / (INR T + 1)).
  { unfold served_weight, transition_weight. rewrite !Nat.add_0_l, Nat.div_0_l, Nat.mod_0_l, (Nat.div_small 1), (Nat.mod_small 1) by lia.
    destruct (Nat.ltb_spec 0 0); [lia|]. do 2 f_equal. lia. }
  assert (W2 : served_weight I T 0 I 0 = INR (1 + T - I) / (INR T + 1)).
  { unfold served_weight, transition_weight. rewrite !Nat.add_0_l, Nat.div_0_l, Nat.div_same, Nat.mod_0_l by lia.
    destruct (Nat.ltb_spec 0 1); [|lia]. do 2 f_equal. }
  rewrite W1, W2. assert (P0 : phase seasonal 0 = 0%nat) by (destruct seasonal; reflexivity).
  assert (P1 : phase seasonal 1 = 1%nat) by (destruct seasonal; reflexivity). rewrite P0, P1.
  destruct (sampled (sample da dc) g 0) as [|[|a u] c0]; cbn in N0; try congruence.
  destruct (sampled (sample da dc) g 1) as [|[|b v] c1]; cbn in N1; try congruence. cbn in *.
  assert (L : INR (1 + T - I) < INR T) by (apply lt_INR; lia). change (match I with 0%nat => S T | S l => (T - l)%nat end) with (1 + T - I)%nat.
  pose proof (pos_INR T). set (s := INR T) in *. set (t := INR (1 + T - I)) in *.
  intros Q. assert (Z0 : (1 - w) * (b - a) * ((s - t) / (s + 1)) = 0).
  { replace ((s - t) / (s + 1)) with (s / (s + 1) - t / (s + 1)) by (field; lra). nra. }
  apply Rmult_integral in Z0 as [Z0|Z0]. apply Rmult_integral in Z0 as [Z0|Z0]; lra.
  unfold Rdiv in Z0. apply Rmult_integral in Z0 as [Z0|Z0]. lra. apply Rinv_neq_0_compat in Z0; lra.
Qed.
Example C79_break_ex : (2 <= 2 <= 2)%nat /\ 0 <> 1 /\
  hd 0 (hd [] (sampled (ex_sample 1 1) 0%nat 0)) <> hd 0 (hd [] (sampled (ex_sample 1 1) 0%nat 1)) /\
  hd [] (sampled (ex_sample 1 1) 0%nat 0) <> [] /\ hd [] (sampled (ex_sample 1 1) 0%nat 1) <> [].
Proof. cbn. repeat split; try lia; try lra; discriminate. Qed.

(** Dimensions may be given at the first request instead of at construction, with the same result; once set
    they cannot be changed. *)
Theorem C79_lazy_dimensions {G} (sample : nat -> nat -> G -> G * coef) binom I T weighted seasonal w da dc g n fuel d0 d1 :
  (1 <= da)%nat -> (1 <= dc)%nat ->
  drifter_new sample I T weighted seasonal w None None g = (d0, Ok tt) ->
  drifter_new sample I T weighted seasonal w (Some da) (Some dc) g = (d1, Ok tt) ->
  get_coefficients sample binom fuel d0 n (Some dc) (Some da) = get_coefficients sample binom fuel d1 n None None.
Proof.
  intros Ha Hc H0 H1. cbn in H0. injection H0 as <-.
  destruct da as [|da'] eqn:Ea; [lia|]. destruct dc as [|dc'] eqn:Ec; [lia|]. rewrite <- Ea, <- Ec in *.
  unfold drifter_new in H1. replace (is_set (Some da) && is_set (Some dc))%bool with true in H1 by (rewrite Ea, Ec; reflexivity).
  unfold get_coefficients at 1. replace (is_set (Some da) && is_set (Some dc))%bool with true by (rewrite Ea, Ec; reflexivity).
  cbn [dr_dim_action dr_dim_context is_set negb andb orb]. unfold set_dims. cbn [dr_interval dr_transition dr_weighted dr_seasonal dr_base_weight dr_available dr_coefs dr_base dr_rng].
  rewrite H1. cbn [fst snd]. unfold get_coefficients. cbn [is_set andb].
  assert (E : exists a b, dr_coefs d1 = [a; b]).
  { unfold update_coef, sample_dims in H1. cbn in H1. destruct (sample da dc g) as [g1 x]. rewrite andb_false_r in H1. destruct (sample da dc g1) as [g2 y].
    injection H1 as <-. cbn. eauto. }
  destruct E as (a & b & ->). reflexivity.
Qed.
Theorem C79_dimension_change {G} (sample : nat -> nat -> G -> G * coef) binom d n fuel da dc :
  (1 <= da)%nat -> (1 <= dc)%nat -> is_set (dr_dim_action d) = true \/ is_set (dr_dim_context d) = true ->
  dr_dim_action d <> Some da \/ dr_dim_context d <> Some dc ->
  get_coefficients sample binom fuel d n (Some dc) (Some da) = Some (d, Err RuntimeError).
Proof.
  intros Ha Hc Hset Hne. destruct da as [|da]; [lia|]. destruct dc as [|dc]; [lia|]. unfold get_coefficients. cbn [is_set andb].
  replace (negb (is_set (dr_dim_action d)) && negb (is_set (dr_dim_context d)))%bool with false
    by (destruct Hset as [->| ->]; cbn; rewrite ?andb_false_r; reflexivity). cbn [orb].
  replace (same_dim (dr_dim_action d) (Some (S da)) && same_dim (dr_dim_context d) (Some (S dc)))%bool with false; [reflexivity|].
  symmetry. apply andb_false_iff.
  destruct Hne as [H|H]; [left|right]; [destruct (dr_dim_action d) as [k|]|destruct (dr_dim_context d) as [k|]]; auto;
    cbn [same_dim]; apply Nat.eqb_neq; congruence.
Qed.
(** Repeating the dimensions changes nothing; a request that leaves one out (or gives 0) keeps those in place. *)
Theorem C79_same_dimensions {G} (sample : nat -> nat -> G -> G * coef) binom d n fuel da dc :
  dr_dim_action d = Some da -> dr_dim_context d = Some dc ->
  get_coefficients sample binom fuel d n (Some dc) (Some da) = get_coefficients sample binom fuel d n None None.
Proof.
  intros Ha Hc. unfold get_coefficients. destruct da as [|da], dc as [|dc]; cbn [is_set andb]; try reflexivity. rewrite Ha, Hc. cbn [same_dim]. rewrite !Nat.eqb_refl, orb_true_r.
  replace (set_dims d (Some (S da)) (Some (S dc))) with d by (destruct d; cbn in *; subst; reflexivity). reflexivity.
Qed.
Definition no_dimension (x : option nat) : Prop := x = None \/ x = Some 0%nat.
Theorem C79_dimension_left_out {G} (sample : nat -> nat -> G -> G * coef) binom d n fuel da dc :
  no_dimension da \/ no_dimension dc ->
  get_coefficients sample binom fuel d n dc da = get_coefficients sample binom fuel d n None None.
Proof.
  intros H. unfold get_coefficients. cbn [is_set andb]. replace (is_set da && is_set dc)%bool with false; [reflexivity|].
  destruct H as [[->| ->]|[->| ->]]; cbn; rewrite ?andb_false_r; reflexivity.
Qed.
(** A drifter built without both dimensions has drawn nothing yet. *)
Theorem C79_nothing_drawn {G} (sample : nat -> nat -> G -> G * coef) I T weighted seasonal w da dc g :
  no_dimension da \/ no_dimension dc ->
  drifter_new sample I T weighted seasonal w da dc g = (mkDrifter I T weighted seasonal w da dc I [] None g, Ok tt).
Proof.
  intros H. unfold drifter_new. replace (is_set da && is_set dc)%bool with false; [reflexivity|].
  destruct H as [[->| ->]|[->| ->]]; cbn; rewrite ?andb_false_r; reflexivity.
Qed.
Example C79_dimension_ex : is_set (dr_dim_action (fst (drifter_new ex_sample 3 2 true true (1/2) (Some 1%nat) (Some 2%nat) 0%nat))) = true.
Proof. reflexivity. Qed.

(** ** C81: delays *)
Lemma ceil_spec x : IZR (ceil x) - 1 < x <= IZR (ceil x).
Proof. unfold ceil. rewrite opp_IZR. pose proof (base_Int_part (- x)). lra. Qed.
Lemma ceil_nonneg x : 0 <= x -> exists n : nat, IZR (ceil x) = INR n /\ (0 < x -> (1 <= n)%nat).
Proof.
  intros H. pose proof (ceil_spec x) as S. assert (0 <= ceil x)%Z. { apply Z.lt_succ_r. unfold Z.succ. apply lt_IZR. rewrite plus_IZR. lra. }
  exists (Z.to_nat (ceil x)). rewrite INR_IZR_INZ, Z2Nat.id by auto. split; auto.
  intros Hx. assert (0 < ceil x)%Z by (apply lt_IZR; lra). lia.
Qed.

(** The plain sampler: one delay per round, shared by all actions, the smallest integer not below the draw;
    non-negative, and at least one round unless the draw is 0. *)
Theorem C81_plain_delays exponential max_scale n K (e : nat -> R) :
  0 <= max_scale -> exponential max_scale n = tab n e -> (forall i, (i < n)%nat -> 0 <= e i) ->
  exists d : nat -> nat, exponential_delay_function exponential max_scale n K = Ok (tab n (fun i => tab K (fun _ => INR (d i)))) /\
    forall i, (i < n)%nat -> INR (d i) - 1 < e i <= INR (d i) /\ (0 < e i -> (1 <= d i)%nat).
Proof.
  intros Hs He Hp. exists (fun i => Z.to_nat (ceil (e i))). unfold exponential_delay_function.
  replace (Rltb max_scale 0) with false by (symmetry; apply Rltb_false; lra). rewrite He, map_tab. split.
  - f_equal. apply tab_ext. intros i Hi. assert (R : forall (x : R) k, repeat x k = tab k (fun _ => x)).
    { intros x k. induction k. reflexivity. rewrite tab_S_first. simpl. rewrite IHk. reflexivity. }
    rewrite R. apply tab_ext. intros _ _. destruct (ceil_nonneg (e i) (Hp i Hi)) as (m & Em & _). rewrite Em.
    rewrite <- INR_IZR_INZ in * || idtac. assert (ceil (e i) = Z.of_nat m) by (apply eq_IZR; rewrite <- INR_IZR_INZ; auto). rewrite H, Nat2Z.id. reflexivity.
  - intros i Hi. destruct (ceil_nonneg (e i) (Hp i Hi)) as (m & Em & Hm). assert (H : ceil (e i) = Z.of_nat m) by (apply eq_IZR; rewrite <- INR_IZR_INZ; auto).
    rewrite H, Nat2Z.id, <- Em. split; auto. apply ceil_spec.
Qed.

(** The reward-weighted sampler: the scale of every (round, action) is between the two scales, larger for
    smaller expected reward; delays are non-negative integers. *)
Theorem C81_weighted_delays exponential lo hi n K (q e : nat -> nat -> R) :
  0 <= lo <= hi -> (forall i a, (i < n)%nat -> (a < K)%nat -> 0 <= q i a <= 1) ->
  exponential (tab n (fun i => tab K (fun a => delay_scale lo hi (q i a)))) = tab n (fun i => tab K (e i)) ->
  (forall i a, (i < n)%nat -> (a < K)%nat -> 0 <= e i a) ->
  (exists d : nat -> nat -> nat, exponential_delay_function_weighted exponential lo hi (tab n (fun i => tab K (q i))) =
     Ok (tab n (fun i => tab K (fun a => INR (d i a)))) /\
     forall i a, (i < n)%nat -> (a < K)%nat -> INR (d i a) - 1 < e i a <= INR (d i a)) /\
  (forall i a, (i < n)%nat -> (a < K)%nat -> lo <= delay_scale lo hi (q i a) <= hi).
Proof.
  intros Hlh Hq He Hp.
  assert (B : forall i a, (i < n)%nat -> (a < K)%nat -> lo <= delay_scale lo hi (q i a) <= hi).
  { intros i a Hi Ha. specialize (Hq i a Hi Ha). unfold delay_scale. nra. }
  split; auto. exists (fun i a => Z.to_nat (ceil (e i a))). unfold exponential_delay_function_weighted. rewrite map_tab.
  assert (E : tab n (fun i => map (delay_scale lo hi) (tab K (q i))) = tab n (fun i => tab K (fun a => delay_scale lo hi (q i a)))).
  { apply tab_ext. intros i _. apply map_tab. }
  rewrite E. replace (existsb (existsb (fun s => Rltb s 0)) (tab n (fun i => tab K (fun a => delay_scale lo hi (q i a))))) with false.
  2:{ symmetry. apply not_true_is_false. intros H. apply existsb_exists in H as (r & Hr & H). apply In_tab in Hr as (i & Hi & <-).
      apply existsb_exists in H as (s & Hs & H). apply In_tab in Hs as (a & Ha & <-). apply Rltb_true in H. specialize (B i a Hi Ha). lra. }
  rewrite He, map_tab. split.
  - f_equal. apply tab_ext. intros i Hi. rewrite map_tab. apply tab_ext. intros a Ha.
    destruct (ceil_nonneg (e i a) (Hp i a Hi Ha)) as (m & Em & _). assert (H : ceil (e i a) = Z.of_nat m) by (apply eq_IZR; rewrite <- INR_IZR_INZ; auto).
    rewrite H, Nat2Z.id, <- INR_IZR_INZ. reflexivity.
  - intros i a Hi Ha. destruct (ceil_nonneg (e i a) (Hp i a Hi Ha)) as (m & Em & Hm). assert (H : ceil (e i a) = Z.of_nat m) by (apply eq_IZR; rewrite <- INR_IZR_INZ; auto).
    rewrite H, Nat2Z.id, <- Em. apply ceil_spec.
Qed.
Theorem C81_scale_decreasing lo hi q q' : lo < hi -> q < q' -> delay_scale lo hi q' < delay_scale lo hi q.
Proof. intros H1 H2. unfold delay_scale. nra. Qed.
(** An expected reward above 1 can make the scale negative, which numpy rejects. *)
Theorem C81_large_reward_rejected exponential lo hi q : 0 <= lo < hi -> q > hi / (hi - lo) ->
  exponential_delay_function_weighted exponential lo hi [[q]] = Err ValueError.
Proof.
  intros H Hq. unfold exponential_delay_function_weighted. cbn. replace (Rltb (delay_scale lo hi q) 0) with true; [reflexivity|]. symmetry. apply Rltb_true.
  unfold delay_scale. assert (q * (hi - lo) > hi). { apply Rmult_gt_compat_r with (r := hi - lo) in Hq; [|lra]. unfold Rdiv in Hq. rewrite Rmult_assoc, Rinv_l in Hq by lra. lra. }
  lra.
Qed.
Example C81_ex : 0 <= 10 <= 100 /\ 0 <= 10 < 100 /\ 3 > 100 / (100 - 10) /\
  (fun (_ : R) n => tab n (fun i => INR i / 2)) 100 3%nat = tab 3 (fun i => INR i / 2) /\ (forall i, (i < 3)%nat -> 0 <= INR i / 2).
Proof. repeat split; try lra. intros i _. pose proof (pos_INR i). lra. Qed.

Print Assumptions C80_rows_exact.
Print Assumptions C80_shape_and_range.
Print Assumptions C80_zero_interval_never_returns.
Print Assumptions C80_no_rounds.
Print Assumptions C79_split_invariance.
Print Assumptions C79_transition_breaks_split.
Print Assumptions C79_lazy_dimensions.
Print Assumptions C79_dimension_change.
Print Assumptions C81_plain_delays.
Print Assumptions C81_weighted_delays.
Print Assumptions C81_scale_decreasing.
Print Assumptions C81_large_reward_rejected.
Print Assumptions C80_weights_below_one.
Print Assumptions C79_same_dimensions.
Print Assumptions C79_dimension_left_out.
Print Assumptions C79_nothing_drawn.
