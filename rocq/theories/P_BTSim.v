(** * P_BTSim: what BernoulliTS.compute_batch_action_dist estimates by simulation (C164). *)

From Coq Require Import Reals List ZArith Lia Lra Psatz Bool.
From Verif Require Import Num NpList M_Utils M_Slate M_Multi M_Embed M_Policy S_Base S_Prob S_Tuning S_Policy S_Conc
  L_Num L_Base L_Prob L_Tuning L_Embed L_Policy L_Conc P_Conc P_Policy.
Import ListNotations.
Open Scope R_scope.

(** Entry (i, a, q) of the returned array. *)
Definition cell (r : res arr3) (i a q : nat) : res num :=
  match r with Ok A => Ok (nth q (nth a (nth i A []) []) NaN) | Err e => Err e end.

(** The posterior samples of the simulations: [o] lists one vector per simulation. *)
Definition posterior_draws (o : list (list R)) (s : nat) (_ _ : arr1) : arr1 := map Fin (nth s o []).

(** Probability that the ranking computed from one posterior sample has action [a] at position [q]. *)
Definition ranked_at (D : dist (list R)) (select : (arr1 -> arr1 -> arr1) -> res (list nat)) (q a : nat) : R :=
  prob D (fun s => match select (fun _ _ => map Fin s) with Ok l => Nat.eqb (nth q l a) a && Nat.ltb q (length l) | Err _ => false end).

Section Sim.
  Variables (argsort : list num -> list nat) (K L : nat) (B : Z) (p : cfp) (alpha beta : nat -> R) (D : dist (list R)).
  Hypothesis Hs : forall xs, is_argsort xs (argsort xs).
  Hypothesis Hr : reachable unit_reward (Z.of_nat K) (Z.of_nat L) B p.
  Hypothesis Hpos : forall a, (a < K)%nat -> 0 < alpha a /\ 0 < beta a.
  Hypothesis HD : is_dist D.
  Hypothesis HK : forall s w, In (s, w) D -> w <> 0 -> length s = K.

  Let sel (s : list R) := top_k argsort L (map Fin s).

  Lemma list_tabF (s : list R) : length s = K -> map Fin s = tabF K (fun i => nth i s 0).
  Proof. intros H. rewrite <- map_Fin_tab. f_equal. symmetry. rewrite <- H. clear. induction s as [|x s IH]; auto.
    simpl length. rewrite tab_S_first. simpl. f_equal. exact IH. Qed.

  Lemma sel_ok s : length s = K ->
    bts_select_action argsort (tabF K alpha) (tabF K beta) p (fun _ _ => map Fin s) = Ok (sel s) /\
    best_first K L (fun i => nth i s 0) (sel s).
  Proof.
    intros Hl. pose proof (reachable_shaped _ _ _ _ _ Hr) as (H1 & H2 & H3 & A1 & A2 & _). rewrite !Nat2Z.id in *.
    unfold sel. assert (G : best_first K L (fun i => nth i s 0) (top_k argsort L (map Fin s))) by (rewrite list_tabF by auto; apply top_k_best; auto; lia).
    split; [|exact G]. unfold bts_select_action. destruct (C70_beta_parameters_positive K (Z.of_nat L) B p alpha beta Hr Hpos) as (a & b & E & Hab).
    rewrite E. cbn [bind fst snd]. unfold beta_call. unfold tabF at 1 2. rewrite !forallb_tab_ok.
    2, 3: intros i Hi; simpl; apply Rltb_true; apply (Hab i Hi).
    cbn [negb raise_if bind]. rewrite A2. reflexivity.
  Qed.

  Definition ind (q a : nat) (s : list R) : R := if Nat.eqb (nth q (sel s) 0%nat) a then 1 else 0.

  Lemma ranked_ind q a : (q < L)%nat ->
    ranked_at D (bts_select_action argsort (tabF K alpha) (tabF K beta) p) q a = expect D (ind q a).
  Proof.
    intros Hq. unfold ranked_at, prob. apply expect_ext. intros s w Hw Hne. destruct (sel_ok s (HK s w Hw Hne)) as [E ((_ & Hlen & _) & _)].
    rewrite E. unfold ind. rewrite (nth_indep (sel s) a 0%nat) by lia. rewrite Hlen. destruct (Nat.ltb_spec q L); [|lia].
    rewrite andb_true_r. reflexivity.
  Qed.

  Lemma cell_run n_rounds n_sim o w i a q : (0 < n_sim)%nat -> In (o, w) (dprod n_sim (fun _ => D)) -> w <> 0 ->
    (i < n_rounds)%nat -> (a < K)%nat -> (q < L)%nat ->
    cell (bts_compute_batch_action_dist argsort (tabF K alpha) (tabF K beta) p n_rounds (Z.of_nat n_sim) (posterior_draws o)) i a q
      = Ok (Fin (avg n_sim (fun s => ind q a (nth s o [])))).
  Proof.
    intros Hn Ho Hw Hi Ha Hq. destruct (In_dprod n_sim (fun _ => D) o w Ho Hw) as [Hl Hin].
    pose proof (reachable_shaped _ _ _ _ _ Hr) as (H1 & H2 & H3 & A1 & A2 & _). rewrite !Nat2Z.id in *.
    assert (Hlen : forall s, (s < n_sim)%nat -> length (nth s o []) = K).
    { intros s Hs'. destruct (Hin s [] Hs') as (w' & Hw1 & Hw2). eauto. }
    unfold bts_compute_batch_action_dist. rewrite Nat2Z.id, A1, A2.
    rewrite (sim_loop argsort (tabF K alpha) (tabF K beta) p K L (posterior_draws o) (fun s => sel (nth s o [])) n_sim).
    2:{ intros s Hs'. destruct (sel_ok (nth s o []) (Hlen s Hs')) as [E [HR _]]. split; [exact E|exact HR]. }
    cbn [bind cell]. do 2 f_equal.
    assert (G : forall A (x d : A) n k, (k < n)%nat -> nth k (repeat x n) d = x).
    { intros A x d n. induction n; intros k Hk; [lia|]. destruct k; simpl; auto. apply IHn. lia. }
    rewrite G by auto. unfold tab2F, tabF. rewrite map_tab, nth_tab by auto. rewrite map_tab, nth_tab by auto.
    rewrite <- INR_IZR_INZ. rewrite ndiv_Fin by (apply INR_ne; lia). unfold avg, ind. reflexivity.
  Qed.
End Sim.

(** ** C164 *)

(** Each entry averages, over the posterior samples, to the probability that one call of select_action ranks that
    action at that position; every round gets the same table. *)
Theorem C164_simulated_distribution_unbiased argsort K L B p alpha beta D n_rounds n_sim i a q :
  (forall xs, is_argsort xs (argsort xs)) ->
  reachable unit_reward (Z.of_nat K) (Z.of_nat L) B p ->
  (forall a, (a < K)%nat -> 0 < alpha a /\ 0 < beta a) ->
  is_dist D -> (forall s w, In (s, w) D -> w <> 0 -> length s = K) ->
  (0 < n_sim)%nat -> (i < n_rounds)%nat -> (a < K)%nat -> (q < L)%nat ->
  expects (dprod n_sim (fun _ => D))
    (fun o => cell (bts_compute_batch_action_dist argsort (tabF K alpha) (tabF K beta) p n_rounds (Z.of_nat n_sim) (posterior_draws o)) i a q)
    (ranked_at D (bts_select_action argsort (tabF K alpha) (tabF K beta) p) q a).
Proof.
  intros Hs Hr Hpos HD HK Hn Hi Ha Hq. exists (fun o => avg n_sim (fun s => ind argsort L q a (nth s o []))). split.
  - intros o w Ho Hw. apply (cell_run argsort K L B p alpha beta D) with (w := w); auto.
  - rewrite (expect_dprod_avg n_sim (fun _ => D) (fun _ => ind argsort L q a) []) by auto.
    rewrite (ranked_ind argsort K L B p alpha beta D Hs Hr Hpos HK) by auto.
    unfold avg. rewrite sumn_const. field. apply INR_ne. lia.
Qed.

Definition deviates (r : res num) (m t : R) : bool :=
  match r with Ok (Fin x) => if Rlt_dec t (Rabs (x - m)) then true else false | _ => true end.

(** Accuracy: with n_sim simulations, an entry is off by more than t, or not a number, with probability at most
    2 exp (-2 n_sim t^2), for every posterior law and every number of actions. *)
Theorem C164_simulated_distribution_accuracy argsort K L B p alpha beta D n_rounds n_sim i a q t :
  (forall xs, is_argsort xs (argsort xs)) ->
  reachable unit_reward (Z.of_nat K) (Z.of_nat L) B p ->
  (forall a, (a < K)%nat -> 0 < alpha a /\ 0 < beta a) ->
  is_dist D -> (forall s w, In (s, w) D -> w <> 0 -> length s = K) ->
  (0 < n_sim)%nat -> (i < n_rounds)%nat -> (a < K)%nat -> (q < L)%nat -> 0 <= t ->
  prob (dprod n_sim (fun _ => D))
    (fun o => deviates (cell (bts_compute_batch_action_dist argsort (tabF K alpha) (tabF K beta) p n_rounds (Z.of_nat n_sim) (posterior_draws o)) i a q)
       (ranked_at D (bts_select_action argsort (tabF K alpha) (tabF K beta) p) q a) t)
  <= 2 * exp (- 2 * INR n_sim * t ^ 2).
Proof.
  intros Hs Hr Hpos HD HK Hn Hi Ha Hq Ht. rewrite (ranked_ind argsort K L B p alpha beta D Hs Hr Hpos HK) by auto.
  set (Y := ind argsort L q a). set (m := expect D Y). assert (HN : 0 < INR n_sim) by (apply lt_0_INR; auto).
  assert (HP : is_dist (dprod n_sim (fun _ => D))) by (apply is_dist_dprod; auto).
  assert (HY : forall s, 0 <= Y s <= 1) by (intros; unfold Y, ind; destruct (Nat.eqb _ _); lra).
  assert (Hone : forall Z : list R -> R, (forall s, 0 <= Z s <= 1) ->
    prob (dprod n_sim (fun _ => D)) (fun o => if Rlt_dec (expect D Z + t) (avg n_sim (fun s => Z (nth s o []))) then true else false)
      <= exp (- 2 * INR n_sim * t ^ 2)).
  { intros Z HZ. pose proof (hoeffding n_sim (fun _ => dmap Z D) 1 t Hn ltac:(lra) Ht) as HH.
    unfold prob in HH. rewrite (expect_dprod_map n_sim (fun _ => D) (fun _ o => match o with Some s => Z s | None => 0 end)) in HH.
    eapply Rle_trans; [|eapply Rle_trans; [apply HH|]].
    - right. unfold prob. apply expect_ext. intros o w Ho Hw. destruct (In_dprod n_sim (fun _ => D) o w Ho Hw) as [Hl _].
      assert (E1 : avg n_sim (fun _ => mean (dmap Z D)) = expect D Z).
      { unfold avg, mean. rewrite sumn_const, expect_dmap. change (expect D (fun a0 => Z a0)) with (expect D Z). field. lra. }
      rewrite E1.
      assert (E2 : avg n_sim (fun i0 => nth i0 (tab n_sim (fun i1 => match nth_error o i1 with Some s => Z s | None => 0 end)) 0) = avg n_sim (fun s => Z (nth s o []))).
      { apply avg_ext. intros s Hs'. rewrite nth_tab by auto. destruct (nth_error o s) as [v|] eqn:E.
        - rewrite (nth_error_nth o s [] E). reflexivity.
        - apply nth_error_None in E. lia. }
      rewrite E2. reflexivity.
    - intros k Hk. split. apply is_dist_dmap; auto. intros x w Hx Hw. apply In_dmap in Hx as (s & -> & _). apply HZ.
    - apply Req_le. f_equal. field. }
  eapply Rle_trans.
  - apply (prob_union _ _ (fun o => if Rlt_dec (expect D Y + t) (avg n_sim (fun s => Y (nth s o []))) then true else false)
      (fun o => if Rlt_dec (expect D (fun s => 1 - Y s) + t) (avg n_sim (fun s => 1 - Y (nth s o []))) then true else false)); auto.
    intros o w Ho Hw E. rewrite (cell_run argsort K L B p alpha beta D Hs Hr Hpos HK n_rounds n_sim o w i a q) in E by auto.
    unfold deviates in E. fold Y in E. destruct (Rlt_dec t _) as [Hlt|]; [|discriminate].
    rewrite expect_minus, expect_const by auto. fold m.
    assert (Em : avg n_sim (fun s => 1 - Y (nth s o [])) = 1 - avg n_sim (fun s => Y (nth s o []))).
    { unfold avg. rewrite sumn_minus, sumn_const. field. lra. }
    rewrite Em. set (v := avg n_sim (fun s => Y (nth s o []))) in *. unfold Rabs in Hlt. destruct (Rcase_abs (v - m)).
    + right. destruct (Rlt_dec (1 - m + t) (1 - v)); [reflexivity|lra].
    + left. destruct (Rlt_dec (m + t) v); [reflexivity|lra].
  - pose proof (Hone Y HY). pose proof (Hone (fun s => 1 - Y s) ltac:(intros s; specialize (HY s); lra)). lra.
Qed.

(** A posterior law with two equally likely sample vectors for two actions. *)
Definition two_posteriors : dist (list R) := [([1/4; 3/4], 1/2); ([3/4; 1/4], 1/2)].
Lemma two_posteriors_ok : is_dist two_posteriors /\ forall s w, In (s, w) two_posteriors -> w <> 0 -> length s = 2%nat.
Proof.
  split; [split|].
  - intros s w [E|[E|[]]]; injection E as <- <-; lra.
  - unfold expect, two_posteriors. simpl. lra.
  - intros s w [E|[E|[]]] _; injection E as <- <-; reflexivity.
Qed.
Example C164_ex : prob (dprod 1000 (fun _ => two_posteriors))
    (fun o => deviates (cell (bts_compute_batch_action_dist isort (tabF 2 (fun _ => 1)) (tabF 2 (fun _ => 1)) (after 2 1 1 []) 3 1000 (posterior_draws o)) 2 1 0)
       (ranked_at two_posteriors (bts_select_action isort (tabF 2 (fun _ => 1)) (tabF 2 (fun _ => 1)) (after 2 1 1 [])) 0 1) (1 / 10))
  <= 2 * exp (- 20).
Proof.
  destruct two_posteriors_ok as [H1 H2].
  eapply Rle_trans; [apply (C164_simulated_distribution_accuracy isort 2 1 1 (after 2 1 1 []) (fun _ => 1) (fun _ => 1) two_posteriors 3 1000 2 1 0 (1/10) isort_ok)|];
    try lia; try lra; auto.
  - apply r_new. apply (post_init_ok 2 1 1); lia.
  - intros. lra.
  - apply Req_le. f_equal. f_equal. rewrite INR_IZR_INZ. simpl. lra.
Qed.
Example C164_unbiased_ex : expects (dprod 5 (fun _ => two_posteriors))
    (fun o => cell (bts_compute_batch_action_dist isort (tabF 2 (fun _ => 1)) (tabF 2 (fun _ => 1)) (after 2 1 1 []) 3 5 (posterior_draws o)) 2 1 0)
    (ranked_at two_posteriors (bts_select_action isort (tabF 2 (fun _ => 1)) (tabF 2 (fun _ => 1)) (after 2 1 1 [])) 0 1).
Proof.
  destruct two_posteriors_ok as [H1 H2].
  apply (C164_simulated_distribution_unbiased isort 2 1 1 (after 2 1 1 []) (fun _ => 1) (fun _ => 1) two_posteriors 3 5 2 1 0 isort_ok); try lia; auto.
  - apply r_new. apply (post_init_ok 2 1 1); lia.
  - intros. lra.
Qed.

Print Assumptions C164_simulated_distribution_unbiased.
Print Assumptions C164_simulated_distribution_accuracy.
