(** * P_ReplayLoop: replaying uniformly logged rounds is a run in the real environment of random length (C139).

    The statement is about the loop of obp/simulator/replay.py 59-82 ([replay_rounds]); C96 says that the published
    function raises before reaching it. *)

From Coq Require Import Reals List ZArith Bool Lia Lra.
From Verif Require Import Num NpList M_Sim S_Base S_Prob L_Num L_Base L_Prob L_Conc.
Import ListNotations.
Open Scope R_scope.

(** ** Specification *)

(** A learning policy: what it knows ([C]), the random draw of one selection ([W], from [le_noise]), and its two methods.
    As an object its state also holds the draws to come. *)
Record learner (C W : Type) : Type := mkLearner {
  le_contextual : bool;
  le_noise : dist W;
  le_select : C -> option nd -> W -> list Z;
  le_update : C -> Z -> num -> option nd -> C }.
Arguments le_contextual {C W}. Arguments le_noise {C W}. Arguments le_select {C W}. Arguments le_update {C W}. Arguments mkLearner {C W}.

Definition as_policy {C W} (l : learner C W) : policy (C * list W) :=
  mkPolicy (if le_contextual l then Contextual else ContextFree)
    (fun s x => match snd s with
                | w :: ws => ((fst s, ws), Ok (le_select l (fst s) x w))
                | [] => (s, Err RuntimeError)
                end)
    (fun s a r x => ((le_update l (fst s) a r x, snd s), Ok tt)).

(** An environment with identically distributed rounds: context and position, and the reward of each action. *)
Record stationary : Type := mkStationary {
  st_K : nat;
  st_L : nat;
  st_situation : dist (arr1 * nat);
  st_reward : arr1 -> nat -> nat -> dist R }.
Record stationary_ok (e : stationary) : Prop := {
  so_K : (0 < st_K e)%nat;
  so_situation : is_dist (st_situation e);
  so_position : forall x s p, In ((x, s), p) (st_situation e) -> (s < st_L e)%nat;
  so_reward : forall x s a, is_dist (st_reward e x s a) }.
Record learner_ok {C W} (e : stationary) (l : learner C W) : Prop := {
  lo_noise : is_dist (le_noise l);
  lo_length : forall c x w, length (le_select l c x w) = st_L e;
  lo_actions : forall c x w a, In a (le_select l c x w) -> (0 <= a < Z.of_nat (st_K e))%Z }.

Definition seen {C W} (l : learner C W) (x : arr1) : option nd := if le_contextual l then Some (Mat [x]) else None.

(** [m] rounds of the policy acting in the environment: what it knows afterwards. *)
Fixpoint online {C W} (e : stationary) (l : learner C W) (m : nat) (c : C) : dist C :=
  match m with
  | O => [(c, 1)]
  | S m =>
      dbind (st_situation e) (fun xs => let '(x, s) := xs in
      dbind (le_noise l) (fun w =>
      let a := nth s (le_select l c (seen l x) w) 0%Z in
      dbind (st_reward e x s (Z.to_nat a)) (fun r =>
      online e l m (le_update l c a (Fin r) (seen l x)))))
  end.

(** One round logged by the uniformly random policy: action, reward, position, context. *)
Definition uniform_round (e : stationary) : dist (Z * num * Z * arr1) :=
  dbind (st_situation e) (fun xs => let '(x, s) := xs in
  dbind (dtab (st_K e) (fun _ => 1 / INR (st_K e))) (fun a =>
  dmap (fun r => (Z.of_nat a, Fin r, Z.of_nat s, x)) (st_reward e x s a))).

(** ** Proof *)

(** Independent draws, first one first. *)
Lemma expect_dprod_first {A} (D : dist A) : is_dist D -> forall n f,
  expect (dprod (S n) (fun _ => D)) f = expect D (fun x => expect (dprod n (fun _ => D)) (fun o => f (x :: o))).
Proof.
  intros HD. induction n as [|n IH]; intros f.
  - cbn [dprod]. rewrite expect_dbind. cbn. rewrite expect_dmap. cbn. rewrite Rplus_0_r, Rmult_1_r. apply expect_ext_all. intros x. ring.
  - change (dprod (S (S n)) (fun _ => D)) with (dbind (dprod (S n) (fun _ => D)) (fun o => dmap (fun x => o ++ [x]) D)).
    rewrite expect_dbind, IH. apply expect_ext_all. intros x.
    change (dprod (S n) (fun _ => D)) with (dbind (dprod n (fun _ => D)) (fun o => dmap (fun x => o ++ [x]) D)). rewrite expect_dbind.
    apply expect_ext_all. intros o. rewrite !expect_dmap. reflexivity.
Qed.

Section Loop.
  Context {C W : Type} (e : stationary) (l : learner C W).
  Hypothesis He : stationary_ok e.
  Hypothesis Hl : learner_ok e l.
  Let pol := as_policy l.

  Lemma loop_cons a r s x rs c w ws acc : (s < st_L e)%nat ->
    replay_rounds pol ((Z.of_nat a, r, Z.of_nat s, x) :: rs) (c, w :: ws) acc =
    let ls := le_select l c (seen l x) w in
    if Z.eqb (Z.of_nat a) (nth s ls 0%Z) then replay_rounds pol rs (le_update l c (nth s ls 0%Z) r (seen l x), ws) (acc ++ [ls])
    else replay_rounds pol rs (c, ws) (acc ++ [ls]).
  Proof.
    intros Hs. cbv zeta. cbn [replay_rounds]. unfold pol, as_policy, seen. cbn [pol_type pol_select pol_update].
    assert (G : forall xx, np_get (le_select l c xx w) (Z.of_nat s) = Ok (nth s (le_select l c xx w) 0%Z)) by (intros; apply np_get_nth; rewrite (lo_length e l Hl); auto).
    destruct (le_contextual l); cbn [fst snd]; rewrite G; match goal with |- context[Z.eqb ?u ?v] => destruct (Z.eqb_spec u v) as [E|E]; try rewrite E end; reflexivity.
  Qed.

  (** The loop completes. *)
  Lemma loop_ok n : forall rs p c ws acc, In (rs, p) (dprod n (fun _ => uniform_round e)) -> p <> 0 -> length ws = n ->
    exists out, snd (replay_rounds pol rs (c, ws) acc) = Ok out.
  Proof.
    intros rs p c ws acc H Hp. destruct (In_dprod _ _ _ _ H Hp) as [Hlen HI]. revert HI. clear H.
    intros HI Hw. assert (HR : List.Forall (fun y => exists a r s x, y = (Z.of_nat a, r, Z.of_nat s, x) /\ (s < st_L e)%nat) rs).
    { apply Forall_forall. intros y Hy. destruct (In_nth _ _ y Hy) as (i & Hi & Ei). rewrite Hlen in Hi. destruct (HI i y Hi) as (q & Hq & Hq0). rewrite Ei in Hq.
      unfold uniform_round in Hq. apply In_dbind in Hq as ([x s] & p1 & p2 & Hx & Hq & Eq). apply In_dbind in Hq as (a & p3 & p4 & Ha & Hq & Eq2).
      apply In_dmap in Hq as (r & -> & Hr). exists a, (Fin r), s, x. split; auto. eapply (so_position e He); eauto. }
    clear HI. revert n ws c acc Hlen Hw. induction HR as [|y rs (a & r & s & x & -> & Hs) HR IH]; intros n ws c acc Hlen Hw; [cbn; eauto|].
    destruct n as [|n]; [discriminate|]. destruct ws as [|w ws]; [discriminate|]. rewrite loop_cons by auto. cbv zeta.
    cbn in Hlen, Hw. destruct (Z.eqb _ _); apply (IH n); lia.
  Qed.

  Variable F : C -> R.
  Definition after (n : nat) (c : C) : R :=
    expect (dprod n (fun _ => uniform_round e)) (fun rs => expect (dprod n (fun _ => le_noise l)) (fun ws => F (fst (fst (replay_rounds pol rs (c, ws) []))))).

  Lemma loop_acc rs : forall s acc acc', fst (replay_rounds pol rs s acc) = fst (replay_rounds pol rs s acc').
  Proof.
    induction rs as [|[[[a r] s] x] rs IH]; intros st acc acc'; [reflexivity|]. cbn [replay_rounds].
    destruct (pol_type pol); try reflexivity;
    (destruct (snd (pol_select pol _ _)) as [ls|]; try reflexivity; destruct (np_get ls s); try reflexivity; destruct (Z.eqb a _); [destruct (snd (pol_update pol _ _ _ _)); try reflexivity|]; apply IH).
  Qed.

  Lemma is_dist_uniform : is_dist (uniform_round e).
  Proof.
    unfold uniform_round. apply is_dist_dbind; [apply He|]. intros [x s] ? _. apply is_dist_dbind.
    - assert (0 < INR (st_K e)) by (apply lt_0_INR, He). apply is_dist_dtab; [intros; apply Rlt_le, Rdiv_lt_0_compat; lra|].
      rewrite sumn_const. field. lra.
    - intros a ? _. apply is_dist_dmap, He.
  Qed.

  Lemma after_S n c : after (S n) c =
    (1 - 1 / INR (st_K e)) * after n c
    + 1 / INR (st_K e) * expect (st_situation e) (fun xs => expect (le_noise l) (fun w =>
        let a := nth (snd xs) (le_select l c (seen l (fst xs)) w) 0%Z in
        expect (st_reward e (fst xs) (snd xs) (Z.to_nat a)) (fun r => after n (le_update l c a (Fin r) (seen l (fst xs)))))).
  Proof.
    assert (HK : 0 < INR (st_K e)) by (apply lt_0_INR, He).
    unfold after at 1. rewrite (expect_dprod_first _ is_dist_uniform). unfold uniform_round at 1. rewrite expect_dbind.
    replace ((1 - 1 / INR (st_K e)) * after n c) with (expect (st_situation e) (fun _ => (1 - 1 / INR (st_K e)) * after n c)) by (apply expect_const, He).
    rewrite <- expect_scal, <- expect_plus. apply expect_ext. intros [x s] px Hx Hpx. cbn [fst snd].
    assert (Hs : (s < st_L e)%nat) by (eapply (so_position e He); eauto).
    rewrite expect_dbind, expect_dtab.
    (* one logged round, one draw of the policy *)
    set (g := fun (w : W) (a : nat) (r : R) => if Z.eqb (Z.of_nat a) (nth s (le_select l c (seen l x) w) 0%Z)
       then after n (le_update l c (nth s (le_select l c (seen l x) w) 0%Z) (Fin r) (seen l x)) else after n c).
    rewrite (sumn_ext _ _ (fun a => expect (le_noise l) (fun w => expect (st_reward e x s a) (g w a) * (1 / INR (st_K e))))).
    2:{ intros a Ha. rewrite expect_scal_r. f_equal. rewrite expect_dmap.
        transitivity (expect (st_reward e x s a) (fun r => expect (le_noise l) (fun w => g w a r))); [|apply expect_swap]. apply expect_ext_all. intros r.
        rewrite (expect_ext_all _ _ (fun rs => expect (le_noise l) (fun w => expect (dprod n (fun _ => le_noise l)) (fun ws =>
            F (fst (fst (replay_rounds pol ((Z.of_nat a, Fin r, Z.of_nat s, x) :: rs) (c, w :: ws) []))))))) by
          (intros rs; rewrite (expect_dprod_first _ (lo_noise e l Hl)); reflexivity).
        rewrite expect_swap. apply expect_ext_all. intros w. unfold g, after.
        destruct (Z.eqb (Z.of_nat a) (nth s (le_select l c (seen l x) w) 0%Z)) eqn:E; apply expect_ext_all; intros rs; apply expect_ext_all; intros ws;
        rewrite loop_cons by auto; cbv zeta; rewrite E; rewrite (loop_acc _ _ _ []); reflexivity. }
    rewrite <- expect_sumn.
    replace ((1 - 1 / INR (st_K e)) * after n c) with (expect (le_noise l) (fun _ => (1 - 1 / INR (st_K e)) * after n c)) by (apply expect_const, Hl).
    rewrite <- expect_scal, <- expect_plus. apply expect_ext_all. intros w. cbv zeta.
    set (b := nth s (le_select l c (seen l x) w) 0%Z).
    assert (Hb : (0 <= b < Z.of_nat (st_K e))%Z).
    { eapply (lo_actions e l Hl). unfold b. apply nth_In. rewrite (lo_length e l Hl). auto. }
    set (k := Z.to_nat b). assert (Hk : (k < st_K e)%nat) by (unfold k; lia).
    assert (Eb : Z.of_nat k = b) by (unfold k; lia).
    rewrite (sumn_ext _ _ (fun a => after n c * (1 / INR (st_K e)) + (if Nat.eqb a k then
        (expect (st_reward e x s k) (fun r => after n (le_update l c b (Fin r) (seen l x))) - after n c) * (1 / INR (st_K e)) else 0))).
    - rewrite sumn_plus, sumn_const.
      assert (Hsg : forall n' f k', (k' < n')%nat -> sumn n' (fun a => if Nat.eqb a k' then f else 0) = f).
      { clear. induction n' as [|n' IH]; intros f k' Hk; [lia|]. change (sumn (S n') ?h) with (sumn n' h + h n'). cbv beta.
        destruct (Nat.eqb_spec n' k') as [->|Hne]; [rewrite sumn_zero; [ring|]; intros i Hi; destruct (Nat.eqb_spec i k'); [lia|auto]|]. rewrite IH by lia. ring. }
      rewrite Hsg by auto. field. lra.
    - intros a Ha. unfold g. fold b. destruct (Nat.eqb_spec a k) as [->|Hne].
      + rewrite Eb, Z.eqb_refl. ring.
      + destruct (Z.eqb_spec (Z.of_nat a) b) as [E|_]; [exfalso; apply Hne; unfold k; lia|]. rewrite expect_const by apply He. ring.
  Qed.

  Lemma online_S m c : expect (online e l (S m) c) F =
    expect (st_situation e) (fun xs => expect (le_noise l) (fun w =>
        let a := nth (snd xs) (le_select l c (seen l (fst xs)) w) 0%Z in
        expect (st_reward e (fst xs) (snd xs) (Z.to_nat a)) (fun r => expect (online e l m (le_update l c a (Fin r) (seen l (fst xs)))) F))).
  Proof.
    cbn [online]. rewrite expect_dbind. apply expect_ext_all. intros [x s]. rewrite expect_dbind. apply expect_ext_all. intros w. cbv zeta.
    rewrite expect_dbind. reflexivity.
  Qed.

  (** Binomial weights by Pascal's recursion. *)
  Fixpoint bw (q : R) (n m : nat) : R :=
    match n with
    | O => match m with O => 1 | _ => 0 end
    | S n => (1 - q) * bw q n m + q * match m with O => 0 | S m => bw q n m end
    end.
  Lemma bw_out q n : forall m, (n < m)%nat -> bw q n m = 0.
  Proof. induction n; intros [|m] H; cbn; try lia; auto. rewrite !IHn by lia. ring. Qed.
  Lemma bw_C q n : forall m, (m <= n)%nat -> bw q n m = Binomial.C n m * q ^ m * (1 - q) ^ (n - m).
  Proof.
    induction n as [|n IH]; intros [|m] H; cbn [bw].
    - unfold Binomial.C. simpl. field.
    - lia.
    - rewrite IH by lia. replace (Binomial.C (S n) 0) with 1 by (unfold Binomial.C; rewrite Nat.sub_0_r; change (INR (fact 0)) with 1; field; apply INR_fact_neq_0).
      replace (Binomial.C n 0) with 1 by (unfold Binomial.C; rewrite Nat.sub_0_r; change (INR (fact 0)) with 1; field; apply INR_fact_neq_0).
      rewrite !Nat.sub_0_r. simpl. ring.
    - rewrite (IH m) by lia. replace (S n - S m)%nat with (n - m)%nat by lia. destruct (Nat.eq_dec m n) as [->|Hne].
      + rewrite bw_out by lia. replace (Binomial.C (S n) (S n)) with 1 by (unfold Binomial.C; rewrite Nat.sub_diag; change (INR (fact 0)) with 1; field; apply INR_fact_neq_0).
        replace (Binomial.C n n) with 1 by (unfold Binomial.C; rewrite Nat.sub_diag; change (INR (fact 0)) with 1; field; apply INR_fact_neq_0). simpl. ring.
      + rewrite (IH (S m)) by lia. rewrite <- (Binomial.pascal n m) by lia. replace (n - m)%nat with (S (n - S m)) by lia. simpl. ring.
  Qed.

  Lemma after_binomial n : forall c, after n c = sumn (S n) (fun m => bw (1 / INR (st_K e)) n m * expect (online e l m c) F).
  Proof.
    set (q := 1 / INR (st_K e)). induction n as [|n IH]; intros c.
    - unfold after. cbn. ring.
    - rewrite after_S. fold q.
      rewrite (sumn_ext (S (S n)) _ (fun m => (1 - q) * (bw q n m * expect (online e l m c) F) + q * (match m with O => 0 | S m' => bw q n m' end * expect (online e l m c) F))) by (intros; cbn [bw]; ring).
      rewrite sumn_plus, !sumn_scal. f_equal.
      + rewrite IH. change (sumn (S (S n)) ?h) with (sumn (S n) h + h (S n)). cbv beta. rewrite (bw_out q n (S n)) by lia. ring.
      + f_equal. rewrite sumn_S_first. rewrite Rmult_0_l, Rplus_0_l.
        rewrite (sumn_ext _ _ (fun m => expect (st_situation e) (fun xs => expect (le_noise l) (fun w =>
          let a := nth (snd xs) (le_select l c (seen l (fst xs)) w) 0%Z in
          expect (st_reward e (fst xs) (snd xs) (Z.to_nat a)) (fun r => bw q n m * expect (online e l m (le_update l c a (Fin r) (seen l (fst xs)))) F))))).
        2:{ intros m Hm. rewrite online_S, <- expect_scal. apply expect_ext_all. intros xs. rewrite <- expect_scal. apply expect_ext_all. intros w. cbv zeta. rewrite <- expect_scal. reflexivity. }
        rewrite <- expect_sumn. apply expect_ext_all. intros xs. rewrite <- expect_sumn. apply expect_ext_all. intros w. cbv zeta. rewrite <- expect_sumn.
        apply expect_ext_all. intros r. apply IH.
  Qed.
End Loop.

(** The same learner, also remembering every [update_params] call: its history. *)
Definition with_history {C W} (l : learner C W) : learner (C * list (option nd * Z * num)) W :=
  mkLearner (le_contextual l) (le_noise l) (fun s => le_select l (fst s))
    (fun s a r x => (le_update l (fst s) a r x, snd s ++ [(x, a, r)])).

Lemma history_ok {C W} e (l : learner C W) : learner_ok e l -> learner_ok e (with_history l).
Proof. intros H. constructor; cbn; intros; [apply H|apply H|eapply (lo_actions e l H); eauto]. Qed.

(** Replaying [n] uniformly logged rounds: the loop completes, and what the policy knows afterwards is distributed as after
    acting in the environment for a binomial number of rounds, each logged round counting with probability 1/K. *)
Theorem C139_replay_is_online : forall C W (e : stationary) (l : learner C W) (c : C) (n : nat) (F : C -> R),
  stationary_ok e -> learner_ok e l ->
  (forall rs p ws, In (rs, p) (dprod n (fun _ => uniform_round e)) -> p <> 0 -> length ws = n ->
     exists out, snd (replay_rounds (as_policy l) rs (c, ws) []) = Ok out) /\
  expect (dprod n (fun _ => uniform_round e)) (fun rs => expect (dprod n (fun _ => le_noise l)) (fun ws =>
    F (fst (fst (replay_rounds (as_policy l) rs (c, ws) []))))) =
  sumn (S n) (fun m => Binomial.C n m * (1 / INR (st_K e)) ^ m * (1 - 1 / INR (st_K e)) ^ (n - m) * expect (online e l m c) F).
Proof.
  intros C W e l c n F He Hl. split.
  - intros rs p ws H Hp Hw. eapply loop_ok; eauto.
  - change (after e l F n c = sumn (S n) (fun m => Binomial.C n m * (1 / INR (st_K e)) ^ m * (1 - 1 / INR (st_K e)) ^ (n - m) * expect (online e l m c) F)).
    rewrite (after_binomial e l He Hl). apply sumn_ext. intros m Hm. rewrite bw_C by lia. reflexivity.
Qed.

Lemma history_length {C W} e (l : learner C W) m : forall c h c' h' p,
  In ((c', h'), p) (online e (with_history l) m (c, h)) -> length h' = (length h + m)%nat.
Proof.
  induction m as [|m IH]; intros c h c' h' p H.
  - cbn in H. destruct H as [[= <- <- <-]|[]]. lia.
  - cbn [online] in H. apply In_dbind in H as ([x s] & p1 & p2 & _ & H & _). apply In_dbind in H as (w & p3 & p4 & _ & H & _).
    cbv zeta in H. apply In_dbind in H as (r & p5 & p6 & _ & H & _). cbn [with_history le_update fst snd] in H. apply IH in H. rewrite H, app_length. simpl. lia.
Qed.

(** Given that [m] rounds matched, the whole history the policy has seen is distributed as [m] rounds in the environment. *)
Theorem C139_given_matches : forall C W (e : stationary) (l : learner C W) (c : C) (n m : nat) (G : list (option nd * Z * num) -> R),
  stationary_ok e -> learner_ok e l -> (m <= n)%nat ->
  expect (dprod n (fun _ => uniform_round e)) (fun rs => expect (dprod n (fun _ => le_noise l)) (fun ws =>
    let h := snd (fst (fst (replay_rounds (as_policy (with_history l)) rs ((c, []), ws) []))) in if Nat.eqb (length h) m then G h else 0)) =
  Binomial.C n m * (1 / INR (st_K e)) ^ m * (1 - 1 / INR (st_K e)) ^ (n - m)
  * expect (online e (with_history l) m (c, [])) (fun s => G (snd s)).
Proof.
  intros C W e l c n m G He Hl Hm.
  destruct (C139_replay_is_online _ _ e (with_history l) (c, []) n (fun s => if Nat.eqb (length (snd s)) m then G (snd s) else 0) He (history_ok e l Hl)) as [_ E].
  cbv zeta. change (le_noise (with_history l)) with (le_noise l) in E. etransitivity; [exact E|].
  assert (Z : forall k, expect (online e (with_history l) k (c, [])) (fun s => if Nat.eqb (length (snd s)) m then G (snd s) else 0)
     = if Nat.eqb k m then expect (online e (with_history l) k (c, [])) (fun s => G (snd s)) else 0).
  { intros k. rewrite (expect_ext _ _ (fun s => if Nat.eqb k m then G (snd s) else 0)).
    - destruct (Nat.eqb k m); [reflexivity|]. clear. induction (online _ _ _ _) as [|[a p] d IH]; cbn; [reflexivity|]. unfold expect in IH. rewrite IH. ring.
    - intros [c' h'] p H _. apply history_length in H. cbn [snd]. rewrite H. reflexivity. }
  rewrite (sumn_ext _ _ (fun k => if Nat.eqb k m then Binomial.C n m * (1 / INR (st_K e)) ^ m * (1 - 1 / INR (st_K e)) ^ (n - m)
     * expect (online e (with_history l) m (c, [])) (fun s => G (snd s)) else 0)).
  2:{ intros k Hk. rewrite Z. destruct (Nat.eqb_spec k m) as [->|_]; [reflexivity|ring]. }
  generalize (Binomial.C n m * (1 / INR (st_K e)) ^ m * (1 - 1 / INR (st_K e)) ^ (n - m) * expect (online e (with_history l) m (c, [])) (fun s => G (snd s))).
  assert (Hmn : (m < S n)%nat) by lia. revert Hmn. generalize (S n). clear. intros N HN v. induction N as [|N IH]; [lia|]. change (sumn (S N) ?h) with (sumn N h + h N). cbv beta.
  destruct (Nat.eqb_spec N m) as [->|Hne].
  - rewrite sumn_zero; [ring|]. intros i Hi. destruct (Nat.eqb_spec i m); [lia|auto].
  - rewrite IH by lia. ring.
Qed.

(** A policy that repeats its last rewarded action, or with probability 1/4 tosses a coin, in an environment with two
    contexts. *)
Definition win_stay : learner bool (bool * bool) :=
  mkLearner true (dbind [(true, 1 / 4); (false, 3 / 4)] (fun explore => dmap (fun a => (explore, a)) [(true, 1 / 2); (false, 1 / 2)]))
    (fun c _ w => [if (if fst w then snd w else c) then 1%Z else 0%Z])
    (fun c a r _ => match r with Fin v => if Req_EM_T v 1 then Z.eqb a 1 else c | _ => c end).
Definition two_contexts : stationary :=
  mkStationary 2 1 [(([Fin 0], 0%nat), 1 / 3); (([Fin 1], 0%nat), 2 / 3)]
    (fun x _ a => if Nat.eqb a 0 then [(1, 1 / 2); (0, 1 / 2)] else [(1, 1 / 5); (0, 4 / 5)]).
Example C139_case : stationary_ok two_contexts /\ learner_ok two_contexts win_stay /\
  (* after two logged rounds nothing, one or two updates with probabilities 1/4, 1/2, 1/4 *)
  sumn 3 (fun m => Binomial.C 2 m * (1 / INR 2) ^ m * (1 - 1 / INR 2) ^ (2 - m) * INR m) = 1.
Proof.
  split; [|split].
  - constructor; cbn.
    + lia.
    + split; cbn; [intros a p [[= <- <-]|[[= <- <-]|[]]]; lra|lra].
    + intros x s p [[= <- <- <-]|[[= <- <- <-]|[]]]; lia.
    + intros x s a. destruct (Nat.eqb a 0); split; cbn; try lra; intros b p [[= <- <-]|[[= <- <-]|[]]]; lra.
  - constructor; cbn.
    + split; cbn; [|lra]. intros a p [[= <- <-]|[[= <- <-]|[[= <- <-]|[[= <- <-]|[]]]]]; lra.
    + reflexivity.
    + intros c x [[] []] a [<-|[]]; destruct c; cbn; lia.
  - unfold Binomial.C. cbn. field.
Qed.

Print Assumptions C139_replay_is_online.
Print Assumptions C139_given_matches.
