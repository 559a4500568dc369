(** * L_Meta: lemmas about M_Meta. *)

From Coq Require Import String Reals List ZArith Lia Lra Bool.
From Verif Require Import Num NpList M_Utils M_Slate M_Meta S_Base S_Slate S_Meta L_Num L_Base L_Utils L_Slate.
Import ListNotations.
Open Scope R_scope.

Lemma dget_dset {A} (d : dict A) k v k' : dget (dset d k v) k' = if String.eqb k k' then Some v else dget d k'.
Proof.
  induction d as [|[k0 w] d IH]; cbn [dset dget]; [reflexivity|]. destruct (String.eqb_spec k0 k) as [->|N]; cbn [dget].
  - destruct (String.eqb_spec k k'); reflexivity.
  - destruct (String.eqb_spec k0 k') as [->|]; [|apply IH]. destruct (String.eqb_spec k k'); [congruence|reflexivity].
Qed.
Lemma dget_In {A} (d : dict A) k v : dget d k = Some v -> In (k, v) d.
Proof. induction d as [|[k0 w] d IH]; cbn [dget]; [discriminate|]. destruct (String.eqb_spec k0 k) as [->|]; [intros [= ->]; left; auto|right; auto]. Qed.
Lemma dget_None {A} (d : dict A) k : dget d k = None <-> ~ In k (map fst d).
Proof.
  induction d as [|[k0 w] d IH]; cbn [dget map fst In]; [tauto|]. destruct (String.eqb_spec k0 k) as [->|N].
  - split; [discriminate|]. intros H. exfalso. apply H. auto.
  - rewrite IH. tauto.
Qed.
Lemma dget_NoDup {A} (d : dict A) k v : NoDup (map fst d) -> In (k, v) d -> dget d k = Some v.
Proof.
  induction d as [|[k0 w] d IH]; cbn [map fst dget In]; [tauto|]. intros H [E|E]; inversion H; subst.
  - injection E as -> ->. rewrite String.eqb_refl. reflexivity.
  - destruct (String.eqb_spec k0 k) as [->|]; auto. exfalso. apply H2. apply in_map_iff. exists (k, v). auto.
Qed.
Lemma keys_dset {A} (d : dict A) k v : map fst (dset d k v) = map fst d ++ (if existsb (String.eqb k) (map fst d) then [] else [k]).
Proof.
  induction d as [|[k0 w] d IH]; cbn [dset map fst existsb]; [reflexivity|]. destruct (String.eqb_spec k0 k) as [->|N]; cbn [map fst].
  - rewrite String.eqb_refl. cbn. rewrite app_nil_r. reflexivity.
  - destruct (String.eqb_spec k k0); [congruence|]. cbn [orb]. rewrite IH. reflexivity.
Qed.
Lemma existsb_In k l : existsb (String.eqb k) l = true <-> In k l.
Proof. rewrite existsb_exists. split; [intros (x & H & E); apply String.eqb_eq in E as ->; auto|intros H; exists k; split; auto; apply String.eqb_refl]. Qed.

Lemma firsts_In x l : In x (firsts l) <-> In x l.
Proof.
  induction l as [|y l IH]; cbn [firsts In]; [tauto|]. rewrite filter_In, IH. destruct (String.eqb_spec x y) as [->|]; cbn [negb]; intuition congruence.
Qed.
Lemma firsts_snoc l x : firsts (l ++ [x]) = firsts l ++ (if existsb (String.eqb x) l then [] else [x]).
Proof.
  induction l as [|y l IH]; cbn [firsts app existsb]; [reflexivity|]. rewrite IH, filter_app. cbn [app]. f_equal. f_equal.
  destruct (existsb (String.eqb x) l); [rewrite orb_true_r; reflexivity|]. rewrite orb_false_r. cbn [filter].
  destruct (String.eqb x y); reflexivity.
Qed.
Lemma firsts_NoDup l : NoDup (firsts l).
Proof.
  induction l as [|y l IH]; cbn [firsts]; constructor.
  - rewrite filter_In, String.eqb_refl. intros [_ H]. discriminate.
  - apply NoDup_filter. auto.
Qed.

Section Ests.
Context {I : Type}.

Lemma est_dict_snoc (ests : list (est I)) e : est_dict (ests ++ [e]) = dset (est_dict ests) (e_name e) e.
Proof. unfold est_dict. rewrite fold_left_app. reflexivity. Qed.

Lemma est_dict_keys (ests : list (est I)) : map fst (est_dict ests) = firsts (map e_name ests).
Proof.
  induction ests as [|e ests IH] using rev_ind; [reflexivity|]. rewrite est_dict_snoc, keys_dset, IH, map_app. cbn [map]. rewrite firsts_snoc. f_equal.
  destruct (existsb (String.eqb (e_name e)) (firsts (map e_name ests))) eqn:E1; destruct (existsb (String.eqb (e_name e)) (map e_name ests)) eqn:E2; auto.
  - apply existsb_In, (proj1 (firsts_In _ _)), (proj2 (existsb_In _ _)) in E1. congruence.
  - apply existsb_In, (proj2 (firsts_In _ _)), (proj2 (existsb_In _ _)) in E2. congruence.
Qed.

Lemma dset_In {A} (d : dict A) k v q : In q (dset d k v) -> q = (k, v) \/ (In q d /\ (NoDup (map fst d) -> fst q <> k)).
Proof.
  induction d as [|[k0 w] d IH]; cbn [dset In]; [intros [<-|[]]; auto|]. destruct (String.eqb_spec k0 k) as [->|N]; cbn [In].
  - intros [<-|H]; auto. right. split; auto. intros ND Eq. cbn in ND. inversion ND; subst. apply H2. apply in_map_iff. exists q. auto.
  - intros [<-|H]; [right; split; auto|]. destruct (IH H) as [->|[H1 H2]]; auto. right. split; auto. intros ND. cbn in ND. inversion ND; auto.
Qed.

Lemma est_dict_spec (ests : list (est I)) k e : In (k, e) (est_dict ests) ->
  k = e_name e /\ exists before after, ests = before ++ e :: after /\ ~ In (e_name e) (map e_name after).
Proof.
  revert k e. induction ests as [|x ests IH] using rev_ind; intros k e H; [destruct H|]. rewrite est_dict_snoc in H.
  apply dset_In in H as [[= -> ->]|[H Hn]].
  - split; auto. exists ests, []. split; auto.
  - assert (ND : NoDup (map fst (est_dict ests))) by (rewrite est_dict_keys; apply firsts_NoDup). specialize (Hn ND). cbn in Hn.
    destruct (IH k e H) as (-> & b & a & -> & Ha). split; auto. exists b, (a ++ [x]). rewrite <- app_assoc. split; auto.
    rewrite map_app, in_app_iff. cbn. intuition.
Qed.

Lemma est_dict_charge (ests : list (est I)) : exists es, est_dict ests = map (fun e => (e_name e, e)) es /\ in_charge ests es /\ NoDup (map e_name es).
Proof.
  exists (map snd (est_dict ests)).
  assert (E : est_dict ests = map (fun e => (e_name e, e)) (map snd (est_dict ests))).
  { rewrite map_map. rewrite <- (map_id (est_dict ests)) at 1. apply map_ext_in. intros [k e] H. cbn. f_equal. apply (est_dict_spec ests k e H). }
  assert (N : map e_name (map snd (est_dict ests)) = firsts (map e_name ests)).
  { rewrite <- est_dict_keys. rewrite E at 2. rewrite !map_map. reflexivity. }
  split; [exact E|]. split; [split|]; auto.
  - intros e H. apply in_map_iff in H as ([k e'] & <- & H). apply (est_dict_spec ests k e' H).
  - rewrite N. apply firsts_NoDup.
Qed.

Lemma run_app {B} (f : est I -> I -> res B) es inputs kw out :
  NoDup (map e_name es) -> (forall e, In e es -> ~ In (e_name e) (map fst out)) -> (forall e, In e es -> inputs (e_name e) = Ok (kw (e_name e))) ->
  run f (map (fun e => (e_name e, e)) es) inputs out = (r <- each es (fun e => f e (kw (e_name e))) ;; Ok (out ++ r)).
Proof.
  revert out. induction es as [|e es IH]; intros out ND Hn Hi; cbn [map run each mapM]; [cbn; rewrite app_nil_r; reflexivity|].
  rewrite Hi by (left; auto). cbn [bind]. destruct (f e (kw (e_name e))) as [v|x]; [|reflexivity]. cbn [bind].
  cbn [map] in ND. inversion ND; subst.
  assert (D : dset out (e_name e) v = out ++ [(e_name e, v)]).
  { assert (Hn' : ~ In (e_name e) (map fst out)) by (apply Hn; left; auto). clear - Hn'. induction out as [|[k w] out IH]; [reflexivity|]. cbn in *.
    destruct (String.eqb_spec k (e_name e)); [intuition|]. rewrite IH; intuition. }
  rewrite D, IH; auto.
  - unfold each. destruct (mapM _ es); cbn [bind]; [|reflexivity]. rewrite <- app_assoc. reflexivity.
  - intros e' He' H. rewrite map_app, in_app_iff in H. destruct H as [H|[H|[]]]; [apply (Hn e'); [right|]; auto|]. cbn in H. apply H1. rewrite H. apply in_map; auto.
  - intros; apply Hi; right; auto.
Qed.
Lemma run_ok {B} (f : est I -> I -> res B) es inputs kw :
  NoDup (map e_name es) -> (forall e, In e es -> inputs (e_name e) = Ok (kw (e_name e))) ->
  run f (map (fun e => (e_name e, e)) es) inputs [] = each es (fun e => f e (kw (e_name e))).
Proof. intros. rewrite (run_app f es inputs kw) by auto. unfold each. destruct (mapM _ es); reflexivity. Qed.

(** The dictionary of inputs. *)
Lemma inputs_ok {J} (es : list (est I)) (f : string -> res J) kw : (forall e, In e es -> f (e_name e) = Ok (kw (e_name e))) ->
  mapM (fun kv : string * est I => i <- f (fst kv) ;; Ok (fst kv, i)) (map (fun e => (e_name e, e)) es) = Ok (map (fun e => (e_name e, kw (e_name e))) es).
Proof.
  intros H. induction es as [|e es IH]; cbn [map mapM]; [reflexivity|]. cbn [fst]. rewrite H by (left; auto). cbn [bind]. rewrite IH by (intros; apply H; right; auto). reflexivity.
Qed.
Lemma inputs_get {J} (es : list (est I)) (kw : string -> J) e : In e es -> dgetitem (map (fun e => (e_name e, kw (e_name e))) es) (e_name e) = Ok (kw (e_name e)).
Proof.
  unfold dgetitem. induction es as [|x es IH]; cbn [map dget In]; [tauto|]. intros [->|H].
  - rewrite String.eqb_refl. reflexivity.
  - destruct (String.eqb_spec (e_name x) (e_name e)) as [->|]; auto.
Qed.
End Ests.

(** ** Shape tests *)

Lemma shape_same_iff a b : shape_same a b = true <-> shape a = shape b.
Proof. unfold shape_same. destruct (list_eq_dec Nat.eq_dec (shape a) (shape b)); intuition congruence. Qed.

Lemma check_array_iff v dim : (exists a, array_of v dim a /\ check_array v dim = Ok a) \/ ((forall a, ~ array_of v dim a) /\ check_array v dim = Err ValueError).
Proof.
  destruct v as [|a|]; cbn [check_array].
  - right. split; auto. intros a [E _]. discriminate.
  - destruct (Nat.eqb_spec (length (shape a)) dim); cbn [negb raise_if bind].
    + left. exists a. split; [split|]; auto.
    + right. split; auto. intros b [[= <-] H]. auto.
  - right. split; auto. intros a [E _]. discriminate.
Qed.
Lemma check_array_ok v dim a : array_of v dim a -> check_array v dim = Ok a.
Proof. intros [-> H]. cbn [check_array]. rewrite H, Nat.eqb_refl. reflexivity. Qed.

(** A test that accepts or raises ValueError. *)
Definition tests {A} (m : res A) (P : Prop) : Prop := (exists a, m = Ok a /\ P) \/ (m = Err ValueError /\ ~ P).

Lemma tests_mapM {A B} (f : A -> res B) (P : A -> Prop) l : (forall x, tests (f x) (P x)) -> tests (mapM f l) (forall x, In x l -> P x).
Proof.
  intros H. induction l as [|x l IH]; cbn [mapM]; [left; eexists; split; [reflexivity|intros x []]|].
  destruct (H x) as [(b & -> & Hx)|[-> Hx]]; cbn [bind].
  - destruct IH as [(bs & -> & Hl)|[-> Hl]]; cbn [bind].
    + left. eexists. split; [reflexivity|]. intros y [<-|Hy]; auto.
    + right. split; auto. intros G. apply Hl. intros y Hy. apply G. right. auto.
  - right. split; auto. intros G. apply Hx, G. left. auto.
Qed.

Lemma tests_item dim axis dist v : tests (check_item dim axis dist v) (rows_ok dim (nth axis (shape dist) 0%nat) v).
Proof.
  unfold check_item. destruct (check_array_iff v dim) as [(a & Ha & ->)|[Ha ->]]; cbn [bind].
  - unfold shape_at. destruct (Nat.eqb_spec (nth 0 (shape a) 0%nat) (nth axis (shape dist) 0%nat)) as [E|N]; cbn [negb raise_if bind].
    + left. exists a. split; auto. exists a. auto.
    + right. split; auto. intros (b & [Eb _] & Hb). destruct Ha as [Ea _]. congruence.
  - right. split; auto. intros (b & Hb & _). apply (Ha b Hb).
Qed.
Lemma tests_q dim a dist : tests (check_q dim a dist) (all_given a (shape_ok dim dist)).
Proof.
  assert (Q : forall v, tests (q <- check_array v dim ;; raise_if (negb (shape_same q dist)) ValueError ;;; Ok q) (shape_ok dim dist v)).
  { intros v. destruct (check_array_iff v dim) as [(x & Hx & ->)|[Hx ->]]; cbn [bind].
    - destruct (shape_same x dist) eqn:E; cbn [negb raise_if bind].
      + left. exists x. split; auto. exists x. split; auto. apply shape_same_iff; auto.
      + right. split; auto. intros (y & [Ey _] & Hy). destruct Hx as [Ex _]. assert (x = y) as <- by congruence. apply shape_same_iff in Hy. congruence.
    - right. split; auto. intros (b & Hb & _). apply (Hx b Hb). }
  destruct a as [v|d]; cbn [check_q all_given].
  - assert (W : forall v, tests (q <- check_array v dim ;; raise_if (negb (shape_same q dist)) ValueError ;;; Ok (@None nd)) (shape_ok dim dist v)).
    { intros w. destruct (Q w) as [(b & E & H)|[E H]]; destruct (check_array w dim) as [y|]; cbn [bind] in E |- *; try discriminate.
      - destruct (raise_if _ _) as [[]|]; cbn [bind] in E |- *; [left; eexists; split; [reflexivity|auto]|discriminate].
      - destruct (raise_if _ _) as [[]|]; cbn [bind] in E |- *; [discriminate|injection E as ->; right; auto].
      - injection E as ->. right; auto. }
    destruct v as [|x|]; [left; eexists; split; [reflexivity|exact Logic.I]|apply (W (PArr x))|apply (W POther)].
  - destruct (tests_mapM _ (fun kv => shape_ok dim dist (snd kv)) d (fun kv => Q (snd kv))) as [(vs & -> & H)|[-> H]]; cbn [bind].
    + left. eexists. split; [reflexivity|]. intros nm v Hin. apply (H (nm, v) Hin).
    + right. split; auto. intros G. apply H. intros [nm v] Hin. apply (G nm v Hin).
Qed.
Lemma tests_arg dim dist a value : tests (check_arg dim dist a value) (all_given a (rows_ok dim (nth 0 (shape dist) 0%nat))).
Proof.
  destruct a as [v|d]; cbn [check_arg all_given].
  - assert (W : forall v, tests (check_item dim 0 dist v ;;; Ok value) (rows_ok dim (nth 0 (shape dist) 0%nat) v)).
    { intros w. destruct (tests_item dim 0 dist w) as [(b & -> & H)|[-> H]]; cbn [bind]; [left|right]; eauto. }
    destruct v as [|x|]; [left; eexists; split; [reflexivity|exact Logic.I]|apply (W (PArr x))|apply (W POther)].
  - destruct (tests_mapM _ (fun kv => rows_ok dim (nth 0 (shape dist) 0%nat) (snd kv)) d (fun kv => tests_item dim 0 dist (snd kv))) as [(vs & -> & H)|[-> H]]; cbn [bind].
    + left. eexists. split; [reflexivity|]. intros nm v Hin. apply (H (nm, v) Hin).
    + right. split; auto. intros G. apply H. intros [nm v] Hin. apply (G nm v Hin).
Qed.

(** What remains in the variable [value]. *)
Lemma mapM_last_some {A B} (f : A -> res B) (P : B -> Prop) l vs : mapM f l = Ok vs -> (forall x b, In x l -> f x = Ok b -> P b) -> forall b, In b vs -> P b.
Proof.
  revert vs. induction l as [|x l IH]; cbn [mapM]; intros vs E H b Hb; [injection E as <-; destruct Hb|].
  destruct (f x) as [y|] eqn:Ex; [|discriminate]. cbn [bind] in E. destruct (mapM f l) as [ys|]; [|discriminate]. cbn [bind] in E. injection E as <-.
  destruct Hb as [<-|Hb]; [apply (H x); auto; left; auto|]. eapply IH; eauto. intros; eapply H; eauto. right; auto.
Qed.
Lemma last_Some {A} (l : list A) d : l = [] /\ last (map Some l) d = d \/ exists b, In b l /\ last (map Some l) d = Some b.
Proof.
  destruct l as [|x l] using rev_ind; [left; auto|]. right. exists x. split; [apply in_app_iff; right; left; auto|].
  rewrite map_app. cbn [map]. apply last_last.
Qed.

Lemma value_q dim a dist v : check_q dim a dist = Ok v -> match v with None => no_entries a | Some w => ~ no_entries a /\ shape w = shape dist end.
Proof.
  destruct a as [x|d]; cbn [check_q no_entries].
  - destruct x as [|x|]; [intros [= <-]; exact Logic.I| |].
    + destruct (check_array _ _); cbn [bind]; [|discriminate]. destruct (raise_if _ _); cbn [bind]; [|discriminate]. intros [= <-]. exact Logic.I.
    + discriminate.
  - destruct (mapM _ d) as [vs|] eqn:E; cbn [bind]; [|discriminate]. intros [= <-]. destruct (last_Some vs None) as [[-> ->]|(b & Hb & ->)].
    + destruct d as [|x d]; [exact Logic.I|]. apply mapM_length in E. discriminate.
    + split; [destruct d; [injection E as <-; destruct Hb|auto]|]. revert b Hb. apply (mapM_last_some _ _ d vs E). intros x b _. destruct (check_array _ _) as [n|]; cbn [bind]; [|discriminate].
      destruct (shape_same n dist) eqn:S; cbn [negb raise_if bind]; [|discriminate]. intros [= <-]. apply shape_same_iff. auto.
Qed.
Lemma value_arg dim dist a v0 v : check_arg dim dist a v0 = Ok v ->
  (v = v0 /\ no_entries a) \/ (~ no_entries a /\ exists w, v = Some w /\ nth 0 (shape w) 0%nat = nth 0 (shape dist) 0%nat).
Proof.
  destruct a as [x|d]; cbn [check_arg no_entries].
  - destruct x as [|x|]; [intros [= <-]; left; split; auto; exact Logic.I| |].
    + destruct (check_item _ _ _ _); cbn [bind]; [|discriminate]. intros [= <-]. left; split; auto; exact Logic.I.
    + discriminate.
  - destruct (mapM _ d) as [vs|] eqn:E; cbn [bind]; [|discriminate]. intros [= <-]. destruct (last_Some vs v0) as [[-> ->]|(b & Hb & ->)].
    + left. split; auto. destruct d as [|x d]; [exact Logic.I|]. apply mapM_length in E. discriminate.
    + right. split; [destruct d; [injection E as <-; destruct Hb|auto]|]. exists b. split; auto. revert b Hb. apply (mapM_last_some _ _ d vs E). intros x b _. unfold check_item. destruct (check_array _ _) as [n|]; cbn [bind]; [|discriminate].
      unfold shape_at. destruct (Nat.eqb_spec (nth 0 (shape n) 0%nat) (nth 0 (shape dist) 0%nat)) as [S|]; cbn [negb raise_if bind]; [|discriminate]. intros [= <-]. auto.
Qed.

(** ** Errors and relative values *)

Lemma dset_map {A B} (h : A -> B) (d : dict A) k v : dset (map (fun kv => (fst kv, h (snd kv))) d) k (h v) = map (fun kv => (fst kv, h (snd kv))) (dset d k v).
Proof. induction d as [|[k0 w] d IH]; cbn [dset map fst snd]; [reflexivity|]. destruct (String.eqb k0 k); cbn [map fst snd]; [reflexivity|]. rewrite IH. reflexivity. Qed.
Lemma run_map {I A B} (f : est I -> I -> res A) (h : A -> B) ests inputs : forall out vs, run f ests inputs out = Ok vs ->
  run (fun e i => v <- f e i ;; Ok (h v)) ests inputs (map (fun kv => (fst kv, h (snd kv))) out) = Ok (map (fun kv => (fst kv, h (snd kv))) vs).
Proof.
  induction ests as [|[nm e] r IH]; cbn [run]; intros out vs; [intros [= <-]; reflexivity|].
  destruct (inputs nm) as [i|]; cbn [bind]; [|discriminate]. destruct (f e i) as [v|]; cbn [bind]; [|discriminate]. rewrite dset_map. apply IH.
Qed.
Lemma run_inputs_ext {I B} (f : est I -> I -> res B) ests inp inp' : (forall k, inp k = inp' k) -> forall out, run f ests inp out = run f ests inp' out.
Proof.
  intros H. induction ests as [|[nm e] r IH]; cbn [run]; intros out; [reflexivity|]. rewrite H. destruct (inp' nm) as [i|]; cbn [bind]; [|reflexivity].
  destruct (f e i); cbn [bind]; [apply IH|reflexivity].
Qed.

Lemma metric_se t v : metric_of "se" (Fin t) (Fin v) = Fin ((v - t) ^ 2).
Proof. unfold metric_of. cbn. f_equal. ring. Qed.
Lemma metric_rel t v : t <> 0 -> metric_of "relative-ee" (Fin t) (Fin v) = Fin (Rabs ((v - t) / t)).
Proof. intros Ht. unfold metric_of. cbn [String.eqb Ascii.eqb Bool.eqb]. cbn [nsub nopp nadd]. rewrite ndiv_Fin by auto. cbn [nabs]. reflexivity. Qed.

(** [run] either both or neither needs the inputs: shared by the four classes. *)
Lemma errors_run {I} (pre : res unit) {J} (inputs : res J) (get : J -> string -> res I) (ests : dict (est I)) :
  reports_errors (pre ;;; ins <- inputs ;; run (fun e i => e_value e i) ests (get ins) [])
    (fun truth metric => check_metric metric truth ;;; ins <- inputs ;; run (fun e i => v <- e_value e i ;; Ok (metric_of metric truth v)) ests (get ins) []).
Proof.
  split; [|split].
  - intros vs t E. destruct pre as [[]|]; cbn [bind] in E; [|discriminate]. destruct inputs as [ins|]; cbn [bind] in E |- *; [|discriminate]. split.
    + cbn [check_metric]. unfold check_metric. cbn. pose proof (run_map _ (metric_of "se" (Fin t)) _ _ _ _ E) as G. cbn [map] in G.
      etransitivity; [exact G|]. rewrite map_map. f_equal. apply map_ext. intros [k v]. cbn [fst snd]. rewrite metric_se. reflexivity.
    + intros Ht. unfold check_metric. cbn [String.eqb Ascii.eqb Bool.eqb orb andb negb raise_if bind neqb]. unfold neqb.
      rewrite (proj2 (Reqb_false t 0)) by auto. cbn [raise_if bind].
      pose proof (run_map _ (metric_of "relative-ee" (Fin t)) _ _ _ _ E) as G. cbn [map] in G.
      etransitivity; [exact G|]. rewrite map_map. f_equal. apply map_ext. intros [k v]. cbn [fst snd]. rewrite metric_rel by auto. reflexivity.
  - intros truth metric H1 H2. unfold check_metric. rewrite (proj2 (String.eqb_neq _ _) H1), (proj2 (String.eqb_neq _ _) H2). reflexivity.
  - unfold check_metric. cbn [String.eqb Ascii.eqb Bool.eqb orb andb negb raise_if bind neqb]. unfold neqb. rewrite (proj2 (Reqb_true 0 0)) by auto. reflexivity.
Qed.

Lemma relative_pos base v : 0 < base -> relative (Fin base) (Fin v) = Fin (v / base).
Proof. intros H. unfold relative. cbn [nle]. rewrite (proj2 (Rleb_false _ _)) by lra. apply ndiv_Fin. lra. Qed.
Lemma relative_neg base v : base <= 0 -> relative (Fin base) v = NaN.
Proof. intros H. unfold relative. cbn [nle]. rewrite (proj2 (Rleb_true _ _)) by lra. reflexivity. Qed.
Lemma relative_reports values intervals (rest : res num) base : rest = Ok (Fin base) ->
  reports_relative values intervals (v <- values ;; ci <- intervals ;; b <- rest ;; Ok (with_relative b v, ci)) base.
Proof.
  intros -> vs ci -> ->. cbn [bind]. unfold with_relative. rewrite map_map. split; intros H; do 2 f_equal; apply map_ext; intros [k v]; cbn [fst snd].
  - rewrite relative_pos by auto. reflexivity.
  - rewrite relative_neg by auto. reflexivity.
Qed.
Lemma relative_reports_ext values intervals s1 s2 base : s1 = s2 -> reports_relative values intervals s1 base -> reports_relative values intervals s2 base.
Proof. intros ->. auto. Qed.

Lemma unique_count l : length (np_unique l) = length (nodup Z.eq_dec l).
Proof.
  apply Nat.le_antisymm; apply NoDup_incl_length.
  - apply np_unique_NoDup.
  - intros x Hx. apply nodup_In. apply np_unique_In. auto.
  - apply NoDup_nodup.
  - intros x Hx. apply np_unique_In. apply nodup_In in Hx. auto.
Qed.
