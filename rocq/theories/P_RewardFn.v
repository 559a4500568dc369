(** * P_RewardFn: property C153 (what the named reward functions and behaviour policies are) *)

From Coq Require Import Reals List ZArith Lia Lra Bool.
From Verif Require Import Num NpList M_Utils M_Data M_RewardFn S_Base S_Data S_RewardFn L_Num L_Base L_Utils P_Utils P_DataFun.
Import ListNotations.
Open Scope R_scope.

(** ** Monomials *)

Definition bump (e : exponents) : exponents := match e with [] => [] | k :: t => S k :: t end.
Fixpoint exps (k : nat) {struct k} : nat -> list exponents :=
  match k with
  | O => fun p => [repeat 0%nat p]
  | S k => fix from (p : nat) : list exponents :=
      match p with O => [] | S q => map bump (exps k (S q)) ++ map (cons 0%nat) (from q) end
  end.
Definition all_exps (d p : nat) : list exponents := flat_map (fun k => exps k p) (seq 0 (S d)).

Lemma monomial_zero p x : monomial (repeat 0%nat p) x = 1.
Proof. revert x. induction p as [|p IH]; intros [|v x]; cbn; auto. rewrite IH. ring. Qed.

Lemma products_cons k v t : products (S k) (v :: t) = map (Rmult v) (products k (v :: t)) ++ products (S k) t.
Proof. reflexivity. Qed.
Lemma exps_S k q : exps (S k) (S q) = map bump (exps k (S q)) ++ map (cons 0%nat) (exps (S k) q).
Proof. reflexivity. Qed.

Lemma exps_length k : forall p e, In e (exps k p) -> length e = p.
Proof.
  induction k as [|k IHk]; intros p e H.
  - cbn in H. destruct H as [<-|[]]. apply repeat_length.
  - revert e H. induction p as [|q IHq]; intros e H; [destruct H|]. rewrite exps_S in H. apply in_app_or in H as [H|H]; apply in_map_iff in H as (f & <- & H).
    + apply IHk in H. destruct f; cbn in *; auto.
    + apply IHq in H. cbn. lia.
Qed.

Lemma products_monomials k : forall x, products k x = map (fun e => monomial e x) (exps k (length x)).
Proof.
  induction k as [|k IHk]; intros x.
  - cbn. rewrite monomial_zero. reflexivity.
  - induction x as [|v t IHt]; [reflexivity|]. rewrite products_cons. cbn [length]. rewrite exps_S, map_app, !map_map. f_equal.
    + rewrite IHk. cbn [length]. rewrite map_map. apply map_ext_in. intros e He. apply exps_length in He. destruct e as [|a e]; [discriminate|]. cbn. ring.
    + rewrite IHt. apply map_ext. intros e. cbn. ring.
Qed.

Lemma exps_spec k : forall p e, In e (exps k p) <-> length e = p /\ total_degree e = k.
Proof.
  induction k as [|k IHk]; intros p e.
  - cbn. split.
    + intros [<-|[]]. split; [apply repeat_length|]. induction p; cbn; auto.
    + intros (EL & ED). left. subst p. induction e as [|a e IH]; [reflexivity|]. cbn in *. f_equal; [lia|apply IH; lia].
  - revert e. induction p as [|q IHq]; intros e.
    + split; [intros []|]. intros (EL & ED). destruct e; [discriminate|discriminate].
    + rewrite exps_S, in_app_iff, !in_map_iff. split.
      * intros [(f & <- & H)|(f & <- & H)].
        -- apply IHk in H as (EL & ED). destruct f as [|a f]; [discriminate|]. cbn in *. lia.
        -- apply IHq in H as (EL & ED). cbn. lia.
      * intros (EL & ED). destruct e as [|a e]; [discriminate|]. cbn in EL, ED. destruct a as [|a].
        -- right. exists e. split; auto. apply IHq. lia.
        -- left. exists (a :: e). split; auto. apply IHk. cbn. lia.
Qed.

Lemma NoDup_disjoint {A} (l1 l2 : list A) : NoDup l1 -> NoDup l2 -> (forall x, In x l1 -> ~ In x l2) -> NoDup (l1 ++ l2).
Proof.
  induction l1 as [|x l1 IH]; intros H1 H2 H; [auto|]. inversion H1; subst. cbn. constructor.
  - rewrite in_app_iff. intros [HI|HI]; [auto|]. apply (H x); [left; auto|auto].
  - apply IH; auto. intros y Hy. apply H. right. auto.
Qed.
Lemma NoDup_map_in {A B} (f : A -> B) l : NoDup l -> (forall x y, In x l -> In y l -> f x = f y -> x = y) -> NoDup (map f l).
Proof.
  induction l as [|a l IH]; intros HN HI; [constructor|]. inversion HN; subst. cbn. constructor.
  - intros H. apply in_map_iff in H as (b & E & Hb). apply HI in E; [|right; auto|left; auto]. subst b. auto.
  - apply IH; auto. intros x y Hx Hy. apply HI; right; auto.
Qed.

Lemma exps_NoDup k : forall p, NoDup (exps k p).
Proof.
  induction k as [|k IHk]; intros p; [repeat constructor; auto|].
  induction p as [|q IHq]; [constructor|]. rewrite exps_S. apply NoDup_disjoint.
  - apply NoDup_map_in; auto. intros x y Hx Hy E. apply exps_length in Hx. apply exps_length in Hy.
    destruct x, y; try discriminate. cbn in E. injection E as -> ->. reflexivity.
  - apply NoDup_map_in; auto. intros x y _ _ E. injection E. auto.
  - intros x Hx Hy. apply in_map_iff in Hx as (e & <- & He). apply in_map_iff in Hy as (f & E & _). apply exps_length in He.
    destruct e; [discriminate|]. discriminate.
Qed.

Lemma all_exps_spec d p : all_monomials d p (all_exps d p).
Proof.
  split.
  - unfold all_exps. assert (H : forall m, NoDup (flat_map (fun k => exps k p) (seq 0 m))).
    { induction m as [|m IH]; [constructor|]. rewrite seq_S, flat_map_app. cbn [flat_map]. rewrite app_nil_r. apply NoDup_disjoint; auto using exps_NoDup.
      intros e He Hm. apply in_flat_map in He as (k & Hk & He). apply in_seq in Hk. apply exps_spec in He. apply exps_spec in Hm. lia. }
    apply H.
  - intros e. unfold all_exps. rewrite in_flat_map. split.
    + intros (k & Hk & He). apply in_seq in Hk. apply exps_spec in He. lia.
    + intros (EL & ED). exists (total_degree e). split; [apply in_seq; lia|]. apply exps_spec. auto.
Qed.

Lemma all_exps_S d p : length (all_exps (S d) p) = (length (all_exps d p) + length (exps (S d) p))%nat.
Proof.
  unfold all_exps. rewrite (seq_S (S d)), flat_map_app, app_length. cbn [Nat.add flat_map]. rewrite app_nil_r. reflexivity.
Qed.
Lemma all_exps_rec d q : length (all_exps (S d) (S q)) = (length (all_exps d (S q)) + length (all_exps (S d) q))%nat.
Proof.
  assert (E : forall k, length (exps (S k) (S q)) = (length (exps k (S q)) + length (exps (S k) q))%nat).
  { intros k. rewrite exps_S, app_length, !map_length. reflexivity. }
  induction d as [|d IH].
  - rewrite !all_exps_S, E. change (length (all_exps 0 (S q))) with 1%nat. change (length (all_exps 0 q)) with 1%nat. change (length (exps 0 (S q))) with 1%nat. unfold exponents in *. lia.
  - rewrite (all_exps_S (S d) (S q)), (all_exps_S d (S q)), (all_exps_S (S d) q), (E (S d)). rewrite all_exps_S in IH. unfold exponents in *. lia.
Qed.

(** The number of monomials is a binomial coefficient. *)
Lemma all_exps_count d p : INR (length (all_exps d p)) = C (p + d) d.
Proof.
  revert p. induction d as [|d IHd]; intros p.
  - rewrite Nat.add_0_r. unfold all_exps. cbn. unfold C. rewrite Nat.sub_0_r. cbn. field. apply INR_fact_neq_0.
  - induction p as [|q IHq].
    + assert (E : forall l, (forall k, In k l -> (1 <= k)%nat) -> flat_map (fun k => exps k 0) l = []).
      { induction l as [|a l IH]; intros Hl; [reflexivity|]. cbn [flat_map]. rewrite IH by (intros; apply Hl; right; auto).
        specialize (Hl a (or_introl eq_refl)). destruct a; [lia|reflexivity]. }
      unfold all_exps. change (seq 0 (S (S d))) with (0%nat :: seq 1 (S d)). cbn [flat_map]. rewrite E by (intros k Hk; apply in_seq in Hk; lia).
      change (length (exps 0 0 ++ [])) with 1%nat. unfold C. cbn [Nat.add]. rewrite Nat.sub_diag. change (fact 0) with 1%nat. change (INR 1) with 1. field. apply INR_fact_neq_0.
    + rewrite all_exps_rec, plus_INR, IHd, IHq. replace (S q + S d)%nat with (S (q + S d)) by lia. replace (S q + d)%nat with (q + S d)%nat by lia.
      apply pascal. lia.
Qed.

Lemma poly_row_monomials d x : poly_row d x = map (fun e => monomial e x) (all_exps d (length x)).
Proof.
  unfold poly_row, all_exps. induction (seq 0 (S d)) as [|k l IH]; [reflexivity|]. cbn [flat_map]. rewrite map_app, IH, products_monomials. reflexivity.
Qed.
Lemma poly_features_tab d n p X : poly_features d (tabR2 n p X) =
  tabR2 n (length (all_exps d p)) (fun i j => monomial (nth j (all_exps d p) []) (tab p (X i))).
Proof.
  unfold poly_features, tabR2. rewrite map_tab. apply tab_ext. intros i Hi. rewrite poly_row_monomials, tab_length.
  rewrite <- (map_tab (length (all_exps d p)) (fun j => nth j (all_exps d p) []) (fun e => monomial e (tab p (X i)))). f_equal. apply list_tab.
Qed.

(** ** C153 *)

(** The features of every row are all monomials of degree at most [degree], each once and in the same order; there are C(p + d, d). *)
Theorem C153_features : forall d p, exists es,
  all_monomials d p es /\ INR (length es) = C (p + d) d /\ forall x, length x = p -> poly_row d x = map (fun e => monomial e x) es.
Proof.
  intros d p. exists (all_exps d p). split; [apply all_exps_spec|]. split; [apply all_exps_count|]. intros x <-. apply poly_row_monomials.
Qed.

(** The coefficients a coefficient function draws once for all rounds. *)
Definition shared (coefs : nat -> nat -> nat -> coef1 * coef1 * coef2) (n ex ea : nat) (w v : nat -> R) (m : nat -> nat -> R) : Prop :=
  coefs n ea ex = (One (tab ex w), One (tab ea v), One2 (tabR2 ex ea m)).

(** The table a reward function makes of the raw values [f] (see C108 for what the shift does). *)
Definition shifted (z : bool) (degree n K : nat) (f : nat -> nat -> R) : arr2 :=
  tab n (fun i => tab K (fun a => nmul (nnat degree) (nsub (Fin (f i a)) (if z then ndiv (Fin (table_mean n K f)) (Fin (table_sd n K f)) else Fin 0)))).

Definition raw_values (ex ea : list exponents) (w v : nat -> R) (m : nat -> nat -> R) (p q : nat) (X A : nat -> nat -> R) (i a : nat) : R :=
  form_value ex ea w v m (tab p (X i)) (tab q (A a)).

Lemma dense_reward d p q choose coefs n K X A z w v m : (1 <= d)%nat -> (0 < n)%nat -> (0 < K)%nat ->
  shared coefs n (length (all_exps d p)) (length (all_exps d q)) w v m ->
  reward_of choose coefs (tabR2 n p X) (tabR2 K q A) z (Z.of_nat d) 1 =
  Ok (shifted z d n K (raw_values (all_exps d p) (all_exps d q) w v m p q X A)).
Proof.
  intros Hd Hn HK Hc. unfold reward_of.
  rewrite (C108_reward poly_features choose coefs _ _ d 1 z n K _ _ (length (all_exps d p)) (length (all_exps d q)) _ _ (fun j => j) (fun j => j) (fun _ => w) (fun _ => v) (fun _ => m) Hn HK Hd ltac:(lra)
    (poly_features_tab d n p X) (poly_features_tab d K q A)).
  - reflexivity.
  - left. repeat split; lra.
  - left. repeat split; lra.
  - left. exists w, v, m. split; [exact Hc|auto].
Qed.

(** The logistic function of the finite entries. *)
Lemma logistic_of_eq t : logistic_of t = map (map (fun v => match v with Fin x => Some (1 / (1 + exp (- x))) | _ => None end)) t.
Proof. unfold logistic_of. apply map_ext. intros r. apply map_ext. intros [x| | |]; auto. f_equal. unfold sigmoid. apply L_Utils.sigmoid_with_ok. auto. Qed.

(** linear_reward_function and polynomial_reward_function, and their logistic versions: the raw value is a linear form in all monomials of
    degree at most 1 (3) of the context, one in those of the action, and a bilinear form in both. *)
Theorem C153_dense : forall p q, exists ex1 ea1 ex3 ea3,
  all_monomials 1 p ex1 /\ all_monomials 1 q ea1 /\ all_monomials 3 p ex3 /\ all_monomials 3 q ea3 /\
  forall choose coefs n K X A z w v m, (0 < n)%nat -> (0 < K)%nat ->
  (shared coefs n (length ex1) (length ea1) w v m ->
   let t := shifted z 1 n K (raw_values ex1 ea1 w v m p q X A) in
   linear_reward_function choose coefs (tabR2 n p X) (tabR2 K q A) z = Ok t /\
   logistic_reward_function choose coefs (tabR2 n p X) (tabR2 K q A) z = Ok (map (map (fun v => match v with Fin x => Some (1 / (1 + exp (- x))) | _ => None end)) t)) /\
  (shared coefs n (length ex3) (length ea3) w v m ->
   let t := shifted z 3 n K (raw_values ex3 ea3 w v m p q X A) in
   polynomial_reward_function choose coefs (tabR2 n p X) (tabR2 K q A) z = Ok t /\
   logistic_polynomial_reward_function choose coefs (tabR2 n p X) (tabR2 K q A) z = Ok (map (map (fun v => match v with Fin x => Some (1 / (1 + exp (- x))) | _ => None end)) t)).
Proof.
  intros p q. exists (all_exps 1 p), (all_exps 1 q), (all_exps 3 p), (all_exps 3 q).
  do 4 (split; [apply all_exps_spec|]). intros choose coefs n K X A z w v m Hn HK. split; intros Hc; cbv zeta.
  - pose proof (dense_reward 1 p q choose coefs n K X A z w v m ltac:(lia) Hn HK Hc) as E. change (Z.of_nat 1) with 1%Z in E.
    split; [exact E|]. unfold logistic_reward_function. rewrite E, <- logistic_of_eq. reflexivity.
  - pose proof (dense_reward 3 p q choose coefs n K X A z w v m ltac:(lia) Hn HK Hc) as E. change (Z.of_nat 3) with 3%Z in E.
    split; [exact E|]. unfold logistic_polynomial_reward_function. rewrite E, <- logistic_of_eq. reflexivity.
Qed.

(** Hence the linear function is affine in the context for every action (and in the action's features for every round). *)
Lemma monomial_affine e : (total_degree e <= 1)%nat -> exists b s, forall x, length x = length e -> monomial e x = b + sumn (length e) (fun j => s j * nth j x 0).
Proof.
  induction e as [|k e IH]; intros H.
  - exists 1, (fun _ => 0). intros x _. cbn. ring.
  - cbn [total_degree] in H. destruct k as [|k].
    + destruct IH as (b & s & E); [lia|]. exists b, (fun j => match j with O => 0 | S j => s j end). intros [|v x] Hx; [discriminate|].
      cbn [monomial length]. rewrite sumn_S_first. cbn [nth]. rewrite E by (cbn in Hx; lia). cbn. ring.
    + exists 0, (fun j => match j with O => 1 | S j => 0 end). intros [|v x] Hx; [discriminate|]. cbn [monomial length]. rewrite sumn_S_first. cbn [nth].
      replace k with 0%nat by lia.
      assert (E : monomial e x = 1). { assert (total_degree e = 0)%nat by lia. clear - H0. revert x. induction e as [|a e IHe]; intros [|u x]; cbn in *; auto.
        destruct a; [|lia]. rewrite IHe by lia. ring. }
      rewrite E. rewrite (sumn_ext _ _ (fun _ => 0)) by (intros; ring). rewrite sumn_0. ring.
Qed.

Lemma affine_sum N p (f : nat -> list R -> R) (c : nat -> R) :
  (forall j, (j < N)%nat -> exists b s, forall x, length x = p -> f j x = b + sumn p (fun k => s k * nth k x 0)) ->
  exists b s, forall x, length x = p -> sumn N (fun j => f j x * c j) = b + sumn p (fun k => s k * nth k x 0).
Proof.
  induction N as [|N IH]; intros H.
  - exists 0, (fun _ => 0). intros x _. cbn [sumn]. rewrite (sumn_ext _ _ (fun _ => 0)) by (intros; ring). rewrite sumn_0. ring.
  - destruct IH as (b & s & E); [intros; apply H; lia|]. destruct (H N) as (b' & s' & E'); [lia|].
    exists (c N * b' + b), (fun k => c N * s' k + s k). intros x Hx. cbn [sumn]. rewrite E, E' by auto.
    rewrite (sumn_ext _ (fun k => (c N * s' k + s k) * nth k x 0) (fun k => c N * (s' k * nth k x 0) + s k * nth k x 0)) by (intros; ring).
    rewrite sumn_plus, sumn_scal. ring.
Qed.

Theorem C153_linear_is_affine : forall p q choose coefs n K X A z w v m, (0 < n)%nat -> (0 < K)%nat ->
  shared coefs n (S p) (S q) w v m ->
  exists b s, linear_reward_function choose coefs (tabR2 n p X) (tabR2 K q A) z =
    Ok (shifted z 1 n K (fun i a => b a + sumn p (fun j => s a j * X i j))).
Proof.
  intros p q choose coefs n K X A z w v m Hn HK Hc.
  assert (EL : forall r, length (all_exps 1 r) = S r).
  { intros r. apply INR_eq. rewrite all_exps_count. replace (r + 1)%nat with (S r) by lia. unfold C. replace (S r - 1)%nat with r by lia.
    rewrite fact_simpl, mult_INR. change (INR (fact 1)) with 1. field. apply INR_fact_neq_0. }
  assert (HA : forall a, exists bs : R * (nat -> R), forall x, length x = p ->
    form_value (all_exps 1 p) (all_exps 1 q) w v m x (tab q (A a)) = fst bs + sumn p (fun j => snd bs j * nth j x 0)).
  { intros a. set (y := tab q (A a)). set (ex := all_exps 1 p). set (ea := all_exps 1 q).
    destruct (affine_sum (length ex) p (fun j => monomial (nth j ex [])) (fun j => w j + sumn (length ea) (fun l => m j l * monomial (nth l ea []) y))) as (b & s & E).
    { intros j Hj. assert (HI : In (nth j ex []) ex) by (apply nth_In; auto). apply (all_exps_spec 1 p) in HI as (E1 & E2).
      destruct (monomial_affine _ E2) as (b & s & E). rewrite E1 in E. exists b, s. exact E. }
    exists (b + sumn (length ea) (fun l => v l * monomial (nth l ea []) y), s). intros x Hx. cbn [fst snd]. unfold form_value.
    specialize (E x Hx). cbv beta in E. rewrite Rplus_assoc, (Rplus_comm (sumn (length ea) (fun l => v l * _))), <- Rplus_assoc. symmetry.
    rewrite Rplus_assoc, (Rplus_comm (sumn (length ea) _)), <- Rplus_assoc, <- E. f_equal.
    rewrite (sumn_ext (length ex) (fun j => monomial (nth j ex []) x * (w j + sumn (length ea) (fun l => m j l * monomial (nth l ea []) y)))
      (fun j => monomial (nth j ex []) x * w j + sumn (length ea) (fun l => monomial (nth j ex []) x * m j l * monomial (nth l ea []) y))).
    2:{ intros j Hj. rewrite Rmult_plus_distr_l, <- sumn_scal. f_equal. apply sumn_ext. intros; ring. }
    rewrite sumn_plus. f_equal. rewrite sumn_swap. apply sumn_ext. intros l Hl. rewrite <- sumn_scal_r. reflexivity. }
  assert (HB : exists bs : nat -> R * (nat -> R), forall a, (a < K)%nat -> forall x, length x = p ->
    form_value (all_exps 1 p) (all_exps 1 q) w v m x (tab q (A a)) = fst (bs a) + sumn p (fun j => snd (bs a) j * nth j x 0)).
  { clear HK. induction K as [|K IH]; [exists (fun _ => (0, fun _ => 0)); intros; lia|]. destruct IH as (bs & Hbs). destruct (HA K) as (b & Hb).
    exists (fun a => if Nat.eqb a K then b else bs a). intros a Ha. destruct (Nat.eqb_spec a K) as [->|]; [exact Hb|apply Hbs; lia]. }
  destruct HB as (bs & HB). exists (fun a => fst (bs a)), (fun a => snd (bs a)).
  pose proof (dense_reward 1 p q choose coefs n K X A z w v m ltac:(lia) Hn HK) as E. rewrite !EL in E. specialize (E Hc). change (Z.of_nat 1) with 1%Z in E.
  unfold linear_reward_function. rewrite E. f_equal.
  assert (EV : forall i a, (i < n)%nat -> (a < K)%nat -> raw_values (all_exps 1 p) (all_exps 1 q) w v m p q X A i a = fst (bs a) + sumn p (fun j => snd (bs a) j * X i j)).
  { intros i a Hi Ha. unfold raw_values. rewrite HB by (auto; apply tab_length). f_equal. apply sumn_ext. intros j Hj. rewrite nth_tab by auto. reflexivity. }
  unfold shifted. rewrite (tm_ext _ _ _ _ EV), (tsd_ext _ _ _ _ EV). apply tab_ext. intros i Hi. apply tab_ext. intros a Ha. rewrite EV by auto. reflexivity.
Qed.

(** The sparse functions use at random a share of 3/10 of the monomials of degree at most 4 (rounded down, at least one), of the context
    and of the action. *)
Definition share (e : nat) (d : R) : Prop := e = 1%nat /\ d * (3 / 10) < 1 \/ (1 <= e)%nat /\ INR e <= d * (3 / 10) < INR e + 1.

Lemma share_exists d : exists e, share e (INR d) /\ ((1 <= d)%nat -> (e <= d)%nat).
Proof.
  set (x := INR d * (3 / 10)). assert (D0 := pos_INR d). destruct (Rlt_le_dec x 1) as [H|H]; [exists 1%nat; split; [left; auto|auto]|].
  pose proof (base_Int_part x) as (B1 & B2). assert (Z1 : (1 <= Int_part x)%Z). { assert (IZR 0 < IZR (Int_part x)) as L by lra. apply lt_IZR in L. lia. }
  assert (Et : INR (Z.to_nat (Int_part x)) = IZR (Int_part x)) by (rewrite INR_IZR_INZ, Z2Nat.id by lia; reflexivity).
  exists (Z.to_nat (Int_part x)). split; [right; fold x; rewrite Et; split; [lia|lra]|]. intros _. apply INR_le. rewrite Et. unfold x in *. lra.
Qed.

Theorem C153_sparse : forall p q choose, chooses choose ->
  exists c a ex ea, share c (C (p + 4) 4) /\ share a (C (q + 4) 4) /\
  some_monomials 4 p c ex /\ some_monomials 4 q a ea /\
  forall coefs n K X A z w v m, (0 < n)%nat -> (0 < K)%nat -> shared coefs n c a w v m ->
  let t := shifted z 4 n K (raw_values ex ea w v m p q X A) in
  sparse_reward_function choose coefs (tabR2 n p X) (tabR2 K q A) z = Ok t /\
  logistic_sparse_reward_function choose coefs (tabR2 n p X) (tabR2 K q A) z = Ok (map (map (fun v => match v with Fin x => Some (1 / (1 + exp (- x))) | _ => None end)) t).
Proof.
  intros p q choose Hch. destruct (share_exists (length (all_exps 4 p))) as (c & Sc & Lc). destruct (share_exists (length (all_exps 4 q))) as (a & Sa & La).
  assert (P1 : forall r, (1 <= length (all_exps 4 r))%nat) by (intros r; cbn; lia).
  specialize (Lc (P1 p)). specialize (La (P1 q)).
  set (col := fun which d e j => nth j (choose which d e) 0%nat).
  assert (HS : forall which r e, (e <= length (all_exps 4 r))%nat ->
    some_monomials 4 r e (tab e (fun j => nth (col which (length (all_exps 4 r)) e j) (all_exps 4 r) [])) /\
    choose which (length (all_exps 4 r)) e = tab e (col which (length (all_exps 4 r)) e) /\
    forall j, (j < e)%nat -> (col which (length (all_exps 4 r)) e j < length (all_exps 4 r))%nat).
  { intros which r e He. destruct (Hch which _ _ He) as (HN & EL & HI). assert (EC : choose which (length (all_exps 4 r)) e = tab e (col which (length (all_exps 4 r)) e)).
    { unfold col. rewrite (list_tab (choose which (length (all_exps 4 r)) e) 0%nat) at 1. rewrite EL. reflexivity. }
    assert (HL : forall j, (j < e)%nat -> (col which (length (all_exps 4 r)) e j < length (all_exps 4 r))%nat) by (intros j Hj; apply HI, nth_In; rewrite EL; auto).
    split; [|split; auto]. destruct (all_exps_spec 4 r) as (AN & AI). split; [|split; [apply tab_length|]].
    - assert (EM : tab e (fun j => nth (col which (length (all_exps 4 r)) e j) (all_exps 4 r) []) = map (fun k => nth k (all_exps 4 r) []) (choose which (length (all_exps 4 r)) e))
        by (rewrite EC, map_tab; reflexivity).
      rewrite EM. apply NoDup_map_in; auto.
      intros x y Hx Hy E. apply HI in Hx. apply HI in Hy. apply (proj1 (NoDup_nth (all_exps 4 r) []) AN x y Hx Hy E).
    - intros x Hx. apply In_tab in Hx as (j & Hj & <-). apply AI, nth_In. auto. }
  destruct (HS 0%nat p c Lc) as (S1 & E1 & L1). destruct (HS 1%nat q a La) as (S2 & E2 & L2).
  eexists c, a, _, _. split; [rewrite <- all_exps_count; exact Sc|]. split; [rewrite <- all_exps_count; exact Sa|]. split; [exact S1|]. split; [exact S2|].
  intros coefs n K X A z w v m Hn HK Hc. cbv zeta.
  assert (HC : forall which d e cl, share e (INR d) -> choose which d e = tab e cl -> (forall j, (j < e)%nat -> (cl j < d)%nat) -> columns (3/10) which d choose e cl).
  { intros which d e cl [(-> & H)|(H1 & H)] Ec Hl; [right; right|right; left]; repeat split; auto; try lra. }
  assert (E : reward_of choose coefs (tabR2 n p X) (tabR2 K q A) z 4 (3/10) = Ok (shifted z 4 n K
    (raw_values (tab c (fun j => nth (col 0%nat (length (all_exps 4 p)) c j) (all_exps 4 p) [])) (tab a (fun j => nth (col 1%nat (length (all_exps 4 q)) a j) (all_exps 4 q) [])) w v m p q X A))).
  { unfold reward_of. change 4%Z with (Z.of_nat 4).
    rewrite (C108_reward poly_features choose coefs _ _ 4 (3/10) z n K _ _ c a _ _ (col 0%nat (length (all_exps 4 p)) c) (col 1%nat (length (all_exps 4 q)) a)
      (fun _ => w) (fun _ => v) (fun _ => m) Hn HK ltac:(lia) ltac:(lra) (poly_features_tab 4 n p X) (poly_features_tab 4 K q A)); auto.
    2:{ left. exists w, v, m. split; [exact Hc|auto]. }
    f_equal. unfold shifted.
    match goal with |- context [table_mean n K (bilinear c a ?X' ?A' ?W ?V ?M)] =>
      assert (EV : forall i b, (i < n)%nat -> (b < K)%nat -> bilinear c a X' A' W V M i b =
        raw_values (tab c (fun j => nth (col 0%nat (length (all_exps 4 p)) c j) (all_exps 4 p) [])) (tab a (fun j => nth (col 1%nat (length (all_exps 4 q)) a j) (all_exps 4 q) [])) w v m p q X A i b) end.
    { intros i b Hi Hb. unfold bilinear, raw_values, form_value. rewrite !tab_length. f_equal; [f_equal|]; apply sumn_ext; intros j Hj; rewrite nth_tab by auto; try reflexivity.
      f_equal. apply sumn_ext. intros k Hk. rewrite nth_tab by auto. reflexivity. }
    rewrite (tm_ext _ _ _ _ EV), (tsd_ext _ _ _ _ EV). apply tab_ext. intros i Hi. apply tab_ext. intros b Hb. rewrite EV by auto. reflexivity. }
  split; [exact E|]. unfold logistic_sparse_reward_function. rewrite E, <- logistic_of_eq. reflexivity.
Qed.

(** linear_behavior_policy and polynomial_behavior_policy: the logits are the standardised values of such a form without the part that
    depends on the context alone. *)
Theorem C153_behaviour : forall p q, exists ex1 ea1 ex3 ea3,
  all_monomials 1 p ex1 /\ all_monomials 1 q ea1 /\ all_monomials 3 p ex3 /\ all_monomials 3 q ea3 /\
  forall unif1 unif2 n K X A v m, (0 < n)%nat -> (0 < K)%nat ->
  let std d (f : nat -> nat -> R) := tab n (fun i => tab K (fun a => ndiv (nmul (nnat d) (nsub (Fin (f i a)) (Fin (table_mean n K f)))) (Fin (table_sd n K f)))) in
  (unif1 (length ea1) = tab (length ea1) v -> unif2 (length ex1) (length ea1) = tabR2 (length ex1) (length ea1) m ->
   linear_behavior_policy unif1 unif2 (tabR2 n p X) (tabR2 K q A) = Ok (std 1%nat (raw_values ex1 ea1 (fun _ => 0) v m p q X A))) /\
  (unif1 (length ea3) = tab (length ea3) v -> unif2 (length ex3) (length ea3) = tabR2 (length ex3) (length ea3) m ->
   polynomial_behavior_policy unif1 unif2 (tabR2 n p X) (tabR2 K q A) = Ok (std 3%nat (raw_values ex3 ea3 (fun _ => 0) v m p q X A))).
Proof.
  intros p q. exists (all_exps 1 p), (all_exps 1 q), (all_exps 3 p), (all_exps 3 q). do 4 (split; [apply all_exps_spec|]).
  intros unif1 unif2 n K X A v m Hn HK std.
  assert (G : forall d, (1 <= d)%nat -> unif1 (length (all_exps d q)) = tab (length (all_exps d q)) v ->
    unif2 (length (all_exps d p)) (length (all_exps d q)) = tabR2 (length (all_exps d p)) (length (all_exps d q)) m ->
    behavior_of unif1 unif2 (tabR2 n p X) (tabR2 K q A) (Z.of_nat d) = Ok (std d (raw_values (all_exps d p) (all_exps d q) (fun _ => 0) v m p q X A))).
  { intros d Hd H1 H2. unfold behavior_of, check_scalar_Z. destruct (Z.ltb_spec (Z.of_nat d) 1); [lia|]. cbn [raise_if bind]. rewrite Nat2Z.id, !poly_features_tab.
    assert (EN : forall n' k f, (0 < n')%nat -> length (nth 0 (tabR2 n' k f) []) = k) by (intros; unfold tabR2; rewrite nth_tab by auto; apply tab_length).
    rewrite !EN by auto. rewrite H1, H2. f_equal.
    destruct (C108_behaviour d n K (length (all_exps d p)) (length (all_exps d q)) (fun i j => monomial (nth j (all_exps d p) []) (tab p (X i))) (fun i j => monomial (nth j (all_exps d q) []) (tab q (A i))) v m Hn HK Hd) as (E & _).
    rewrite E. clear E. unfold behaviour_logits. rewrite rmean_tab, rstd_tab.
    match goal with |- context [table_mean n K ?f] =>
      assert (EV : forall i a, (i < n)%nat -> (a < K)%nat -> f i a = raw_values (all_exps d p) (all_exps d q) (fun _ => 0) v m p q X A i a) end.
    { intros i a Hi Ha. unfold raw_values, form_value. rewrite (sumn_ext (length (all_exps d p)) (fun j => monomial (nth j (all_exps d p) []) (tab p (X i)) * 0) (fun _ => 0)) by (intros; ring).
      rewrite sumn_0. ring. }
    rewrite (tm_ext _ _ _ _ EV), (tsd_ext _ _ _ _ EV). unfold std, tabR2. rewrite map_tab. apply tab_ext. intros i Hi. rewrite map_tab. apply tab_ext. intros a Ha.
    rewrite EV by auto. reflexivity. }
  split; intros H1 H2; [exact (G 1%nat ltac:(lia) H1 H2)|exact (G 3%nat ltac:(lia) H1 H2)].
Qed.

(** One context feature, one action feature: degree 3 makes four columns of each, and the features of 2 are 1, 2, 4, 8. *)
Example C153_ex_features : poly_row 3 [2] = [1; 2; 4; 8] /\ poly_row 2 [2; 5] = [1; 2; 5; 4; 10; 25].
Proof. split; cbn; repeat f_equal; ring. Qed.
Example C153_ex : linear_reward_function (fun _ _ _ => []) (fun _ ea ex => (One (tab ex INR), One (tab ea (fun _ => 1)), One2 (tabR2 ex ea (fun _ _ => 1))))
    (tabR2 2 1 (fun i _ => INR i)) (tabR2 2 1 (fun a _ => INR a)) false = Ok [[Fin 2; Fin 4]; [Fin 4; Fin 7]].
Proof.
  assert (E := dense_reward 1 1 1 (fun _ _ _ => []) (fun _ ea ex => (One (tab ex INR), One (tab ea (fun _ => 1)), One2 (tabR2 ex ea (fun _ _ => 1)))) 2 2
    (fun i _ => INR i) (fun a _ => INR a) false INR (fun _ => 1) (fun _ _ => 1) ltac:(lia) ltac:(lia) ltac:(lia) eq_refl).
  change (Z.of_nat 1) with 1%Z in E. unfold linear_reward_function. rewrite E. unfold shifted, raw_values, form_value, tab. cbn. repeat f_equal; lra.
Qed.
Example C153_sparse_ex : chooses (fun _ _ e => seq 0 e) /\ share 1 (C (1 + 4) 4).
Proof.
  split.
  - intros which d e He. split; [apply seq_NoDup|]. split; [apply seq_length|]. intros c Hc. apply in_seq in Hc. lia.
  - right. split; [lia|]. unfold C. cbn. lra.
Qed.

Print Assumptions C153_features.
Print Assumptions C153_dense.
Print Assumptions C153_linear_is_affine.
Print Assumptions C153_sparse.
Print Assumptions C153_behaviour.
