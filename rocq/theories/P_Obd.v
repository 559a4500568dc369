(** * P_Obd: what the default feature encoding of OpenBanditDataset keeps and what it loses (C160). *)

From Coq Require Import String Ascii Reals List ZArith Lia Lra Bool Sorted Permutation.
From Verif Require Import Num NpList M_Obd S_Base L_Num L_Base.
Import ListNotations.
Open Scope R_scope.

(** ** Specification *)

(** The name contains the text "user_feature". *)
Definition about_user (name : string) : Prop := exists a b, name = (a ++ "user_feature" ++ b)%string.
(** [s] comes before [s'] in the order of strings. *)
Definition before (s s' : string) : Prop := String.compare s s' = Lt.
(** The cell is one of the column's smallest present values. *)
Definition smallest (l : list (option string)) (c : option string) : Prop :=
  exists s, c = Some s /\ In (Some s) l /\ forall s', In (Some s') l -> s' = s \/ before s s'.
(** The encoding cannot tell the two cells apart: equal, or one missing and the other the smallest value. *)
Definition alike (l : list (option string)) (c c' : option string) : Prop :=
  c = c' \/ (c = None /\ smallest l c') \/ (smallest l c /\ c' = None).
Definition cells_alike (c : column) (i j : nat) : Prop :=
  match c with Cats l => alike l (nth i l None) (nth j l None) | Nums l => nth i l NaN = nth j l NaN end.
Definition cells_equal (c : column) (i j : nat) : Prop :=
  match c with Cats l => nth i l None = nth j l None | Nums l => nth i l NaN = nth j l NaN end.
(** The present values of a column, each once. *)
Definition present (l : list (option string)) : list string := flat_map (fun c => match c with Some s => [s] | None => [] end) l.
Definition values_of (l : list (option string)) : list string := nodup string_dec (present l).
(** The columns about the user, in order. *)
Inductive user_columns : table -> table -> Prop :=
| uc_nil : user_columns [] []
| uc_keep nm c t u : about_user nm -> user_columns t u -> user_columns ((nm, c) :: t) ((nm, c) :: u)
| uc_skip nm c t u : ~ about_user nm -> user_columns t u -> user_columns ((nm, c) :: t) u.
(** Columns taken by one feature. *)
Definition width (c : column) : nat := match c with Cats l => pred (length (values_of l)) | Nums _ => 1 end.
Definition rows_are (n : nat) (t : table) : Prop :=
  forall nm c, In (nm, c) t -> match c with Cats l => length l = n | Nums l => length l = n end.
(** The rows of the frame in another order: row [k] of the result is row [p k] of [t]. *)
Definition reorder (p : list nat) (t : table) : table :=
  map (fun nc => (fst nc, match snd nc with Cats l => Cats (map (fun k => nth k l None) p) | Nums l => Nums (map (fun k => nth k l NaN) p) end)) t.

(** Distinct numbers. *)
Definition num_eq_dec (x y : num) : {x = y} + {x <> y}.
Proof. decide equality. apply Req_EM_T. Defined.
(** The rank of the [i]-th cell of an item feature: how many distinct values of the column come before it (all of them
    if it is missing). *)
Definition rank (c : column) (i : nat) : nat :=
  match c with
  | Cats l => length (filter (fun s => match nth i l None with Some x => String.ltb s x | None => true end) (values_of l))
  | Nums l => length (filter (fun v => match nth i l NaN with NaN => true | x => nlt v x end)
                             (nodup num_eq_dec (filter (fun v => match v with NaN => false | _ => true end) l)))
  end.
(** The item features that are encoded: all columns but two, in order. *)
Inductive item_columns : table -> table -> Prop :=
| ic_nil : item_columns [] []
| ic_keep nm c t u : nm <> "item_id"%string -> nm <> "item_feature_0"%string -> item_columns t u -> item_columns ((nm, c) :: t) ((nm, c) :: u)
| ic_skip nm c t u : nm = "item_id"%string \/ nm = "item_feature_0"%string -> item_columns t u -> item_columns ((nm, c) :: t) u.

(** ** Sorted distinct values *)

Lemma acmp_refl a : Ascii.compare a a = Eq.
Proof. apply N.compare_refl. Qed.
Lemma scmp_refl s : String.compare s s = Eq.
Proof. induction s; cbn; auto. rewrite acmp_refl. auto. Qed.
Lemma scmp_eq s s' : String.compare s s' = Eq <-> s = s'.
Proof. split; [apply String.compare_eq_iff|intros ->; apply scmp_refl]. Qed.
Lemma scmp_sym s s' : String.compare s' s = CompOpp (String.compare s s').
Proof. rewrite (String.compare_antisym s s'). destruct (String.compare s' s); reflexivity. Qed.
Lemma scmp_trans : forall x y z, String.compare x y = Lt -> String.compare y z = Lt -> String.compare x z = Lt.
Proof.
  induction x as [|a x IH]; intros [|b y] [|c z]; cbn; try discriminate; auto.
  unfold Ascii.compare. destruct (N.compare_spec (N_of_ascii a) (N_of_ascii b)), (N.compare_spec (N_of_ascii b) (N_of_ascii c)),
    (N.compare_spec (N_of_ascii a) (N_of_ascii c)); intros E1 E2; try discriminate; auto; try lia; try (eapply IH; eauto; fail).
Qed.

Section Levels.
Context {A : Type} (cmp : A -> A -> comparison).
Hypothesis Ceq : forall x y, cmp x y = Eq <-> x = y.
Hypothesis Csym : forall x y, cmp y x = CompOpp (cmp x y).
Hypothesis Ctrans : forall x y z, cmp x y = Lt -> cmp y z = Lt -> cmp x z = Lt.
Let lt x y := cmp x y = Lt.

Lemma In_insert x l z : In z (insert_level cmp x l) <-> z = x \/ In z l.
Proof.
  induction l as [|y r IH]; cbn [insert_level In]; [intuition|].
  destruct (cmp x y) eqn:E; cbn [In]; [apply Ceq in E; subst; intuition|intuition|rewrite IH; intuition].
Qed.
Lemma In_levels l z : In z (levels cmp l) <-> In (Some z) l.
Proof.
  induction l as [|[x|] r IH]; cbn [levels In]; [tauto| |].
  - rewrite In_insert, IH. intuition congruence.
  - rewrite IH. intuition discriminate.
Qed.
Lemma insert_sorted x l : StronglySorted lt l -> StronglySorted lt (insert_level cmp x l).
Proof.
  induction 1 as [|y r Hs IH Hy]; cbn [insert_level]; [repeat constructor|].
  destruct (cmp x y) eqn:E.
  - constructor; auto.
  - constructor; [constructor; auto|]. constructor; auto. eapply Forall_impl; [|exact Hy]. intros z Hz. eapply Ctrans; eauto.
  - constructor; [exact IH|]. apply Forall_forall. intros z Hz. apply In_insert in Hz as [->|Hz].
    + unfold lt. rewrite Csym, E. reflexivity.
    + rewrite Forall_forall in Hy. auto.
Qed.
Lemma levels_sorted l : StronglySorted lt (levels cmp l).
Proof. induction l as [|[x|] r IH]; cbn [levels]; [constructor|apply insert_sorted; auto|auto]. Qed.
Lemma lt_irrefl x : ~ lt x x.
Proof. unfold lt. rewrite (proj2 (Ceq x x) eq_refl). discriminate. Qed.
Lemma sorted_NoDup l : StronglySorted lt l -> NoDup l.
Proof.
  induction 1 as [|y r Hs IH Hy]; constructor; auto. intros Hin. rewrite Forall_forall in Hy. exact (lt_irrefl y (Hy y Hin)).
Qed.
Lemma sorted_unique : forall l l', StronglySorted lt l -> StronglySorted lt l' -> (forall z, In z l <-> In z l') -> l = l'.
Proof.
  induction l as [|x l IH]; intros [|y l'] H1 H2 H; auto.
  - exfalso. apply (proj2 (H y)). left; auto.
  - exfalso. apply (proj1 (H x)). left; auto.
  - inversion H1 as [|? ? S1 F1]; inversion H2 as [|? ? S2 F2]; subst. rewrite Forall_forall in F1, F2.
    assert (x = y).
    { destruct (proj1 (H x) (or_introl eq_refl)) as [E|Hx]; auto. destruct (proj2 (H y) (or_introl eq_refl)) as [E|Hy]; auto.
      exfalso. apply (lt_irrefl x). eapply Ctrans; [apply (F1 y Hy)|apply (F2 x Hx)]. }
    subst y. f_equal. apply IH; auto. intros z. split; intros Hz.
    + destruct (proj1 (H z) (or_intror Hz)) as [<-|]; auto. exfalso. apply (lt_irrefl x). auto.
    + destruct (proj2 (H z) (or_intror Hz)) as [<-|]; auto. exfalso. apply (lt_irrefl x). auto.
Qed.
Lemma levels_ext l l' : (forall z, In (Some z) l <-> In (Some z) l') -> levels cmp l = levels cmp l'.
Proof. intros H. apply sorted_unique; try apply levels_sorted. intros z. rewrite !In_levels. apply H. Qed.

Lemma position_lt x lv : In x lv -> (position_in cmp x lv < length lv)%nat.
Proof.
  induction lv as [|y r IH]; cbn [position_in In length]; [tauto|]. intros [->|H].
  - rewrite (proj2 (Ceq x x) eq_refl). lia.
  - destruct (cmp x y); try lia; specialize (IH H); lia.
Qed.
Lemma position_order lv : StronglySorted lt lv -> forall x y, In x lv -> In y lv ->
  ((position_in cmp x lv < position_in cmp y lv)%nat <-> lt x y).
Proof.
  induction 1 as [|w r Hs IH Hw]; cbn [position_in In]; [tauto|]. rewrite Forall_forall in Hw.
  intros x y [->|Hx] [->|Hy].
  - split; [lia|]. intros H. exfalso. exact (lt_irrefl _ H).
  - rewrite (proj2 (Ceq x x) eq_refl). assert (N : cmp y x <> Eq). { intros E. apply Ceq in E. subst. exact (lt_irrefl _ (Hw _ Hy)). }
    split; [intros _; exact (Hw y Hy)|]. destruct (cmp y x); [congruence| |]; intros; lia.
  - rewrite (proj2 (Ceq y y) eq_refl). split; [lia|]. intros H. exfalso. apply (lt_irrefl x). eapply Ctrans; [exact H|]. apply Hw; auto.
  - assert (cmp x w <> Eq). { intros E. apply Ceq in E. subst. exact (lt_irrefl _ (Hw _ Hx)). }
    assert (cmp y w <> Eq). { intros E. apply Ceq in E. subst. exact (lt_irrefl _ (Hw _ Hy)). }
    rewrite <- (IH x y Hx Hy). destruct (cmp x w), (cmp y w); try congruence; lia.
Qed.
Lemma position_count lv : StronglySorted lt lv -> forall x, In x lv ->
  position_in cmp x lv = length (filter (fun y => match cmp y x with Lt => true | _ => false end) lv).
Proof.
  induction 1 as [|w r Hs IH Hw]; cbn [position_in In filter]; [tauto|]. rewrite Forall_forall in Hw. intros x [->|Hx].
  - rewrite (proj2 (Ceq x x) eq_refl). cut (filter (fun y => match cmp y x with Lt => true | _ => false end) r = []); [intros ->; reflexivity|].
    assert (G : forall y, In y r -> cmp y x = Gt). { intros y Hy. rewrite Csym, (Hw y Hy). reflexivity. }
    clear -G. induction r as [|y r IH]; cbn [filter]; auto. rewrite (G y (or_introl eq_refl)). apply IH. intros; apply G; right; auto.
  - pose proof (Hw x Hx) as L. unfold lt in L. rewrite L. rewrite (Csym w x), L. cbn [CompOpp length]. f_equal. apply IH. exact Hx.
Qed.
Lemma filter_perm (f : A -> bool) l l' : Permutation l l' -> length (filter f l) = length (filter f l').
Proof. induction 1; cbn [filter]; auto; [destruct (f x); cbn; auto|destruct (f x), (f y); cbn; auto|congruence]. Qed.
Lemma code_count l vs c : NoDup vs -> (forall z, In z vs <-> In (Some z) l) -> In c l ->
  label_code cmp (levels cmp l) c = length (filter (fun y => match c with Some x => match cmp y x with Lt => true | _ => false end | None => true end) vs).
Proof.
  intros ND Hv Hc. assert (P : Permutation (levels cmp l) vs).
  { apply NoDup_Permutation; auto. apply sorted_NoDup, levels_sorted. intros z. rewrite In_levels, Hv. tauto. }
  destruct c as [x|]; cbn [label_code].
  - rewrite <- (filter_perm _ _ _ P). apply position_count; [apply levels_sorted|]. apply In_levels. exact Hc.
  - rewrite (Permutation_length P). clear. induction vs; cbn; auto.
Qed.
Lemma code_inj l c c' : In c l -> In c' l -> label_code cmp (levels cmp l) c = label_code cmp (levels cmp l) c' -> c = c'.
Proof.
  intros H H'. destruct c as [x|], c' as [y|]; cbn [label_code]; auto.
  - intros E. apply In_levels in H, H'. f_equal. pose proof (levels_sorted l) as S.
    pose proof (position_order _ S x y H H') as P1. pose proof (position_order _ S y x H' H) as P2.
    destruct (cmp x y) eqn:C; [apply Ceq; auto| |].
    + exfalso. pose proof (proj2 P1 C). lia.
    + exfalso. assert (lt y x) by (unfold lt; rewrite Csym, C; reflexivity). pose proof (proj2 P2 H0). lia.
  - intros E. apply In_levels in H. apply position_lt in H. lia.
  - intros E. apply In_levels in H'. apply position_lt in H'. lia.
Qed.
End Levels.

Lemma In_slevels l z : In z (levels String.compare l) <-> In (Some z) l.
Proof. apply In_levels. exact scmp_eq. Qed.
Lemma slevels_sorted l : StronglySorted before (levels String.compare l).
Proof. apply (levels_sorted String.compare scmp_eq scmp_sym scmp_trans). Qed.
Lemma slevels_NoDup l : NoDup (levels String.compare l).
Proof. apply (sorted_NoDup String.compare scmp_eq). apply slevels_sorted. Qed.
Lemma In_present l z : In z (present l) <-> In (Some z) l.
Proof.
  unfold present. rewrite in_flat_map. split.
  - intros ([s|] & H & Hz); [|destruct Hz]. destruct Hz as [->|[]]. exact H.
  - intros H. exists (Some z). split; [exact H|]. left; auto.
Qed.
Lemma levels_count l : length (levels String.compare l) = length (values_of l).
Proof.
  apply Permutation_length, NoDup_Permutation; [apply slevels_NoDup|apply NoDup_nodup|].
  intros z. unfold values_of. rewrite In_slevels, nodup_In, In_present. tauto.
Qed.
Lemma before_irrefl s : ~ before s s.
Proof. unfold before. rewrite scmp_refl. discriminate. Qed.

(** ** One cell *)

Lemma dummies_length lv c : length (dummies lv c) = pred (length lv).
Proof. unfold dummies. rewrite map_length. destruct lv; reflexivity. Qed.
Lemma map_eq_In {A B} (f g : A -> B) l : map f l = map g l -> forall x, In x l -> f x = g x.
Proof.
  induction l as [|y l IH]; cbn [map In]; [tauto|]. intros H x [->|Hx]; injection H as H1 H2; auto.
Qed.
Lemma one_zero : Fin 1 <> Fin 0.
Proof. intros [= E]. lra. Qed.

Lemma smallest_first l s : In (Some s) l -> (smallest l (Some s) <-> exists r, levels String.compare l = s :: r).
Proof.
  intros Hs. pose proof (slevels_sorted l) as S. assert (M : forall z, In z (levels String.compare l) <-> In (Some z) l) by apply In_slevels.
  split.
  - intros (s' & [= <-] & _ & H). destruct (levels String.compare l) as [|v r] eqn:E.
    + exfalso. apply (proj2 (M s) Hs).
    + exists r. f_equal. destruct (H v (proj1 (M v) (or_introl eq_refl))) as [->|Hv]; auto.
      destruct (proj2 (M s) Hs) as [Es|Hs']; [congruence|]. clear Hs. rename Hs' into Hs. apply StronglySorted_inv in S as [_ F]. rewrite Forall_forall in F.
      exfalso. apply (before_irrefl s). eapply scmp_trans; [exact Hv|apply (F s Hs)].
  - intros (r & E). exists s. split; [auto|]. split; [auto|]. intros s' Hs'. apply M in Hs'. rewrite E in *. destruct Hs' as [->|Hs']; auto.
    right. apply StronglySorted_inv in S as [_ F]. rewrite Forall_forall in F. auto.
Qed.

Lemma dummies_alike l c c' : (forall s, c = Some s -> In (Some s) l) -> (forall s, c' = Some s -> In (Some s) l) ->
  (dummies (levels String.compare l) c = dummies (levels String.compare l) c' <-> alike l c c').
Proof.
  intros Hc Hc'. pose proof (slevels_NoDup l) as ND.
  assert (M : forall z, In z (levels String.compare l) <-> In (Some z) l) by apply In_slevels.
  assert (Z : forall s, In (Some s) l -> (dummies (levels String.compare l) (Some s) = dummies (levels String.compare l) None <-> smallest l (Some s))).
  { intros s Hs. rewrite (smallest_first l s Hs). apply M in Hs as Hs'. destruct (levels String.compare l) as [|v r]; [destruct Hs'|].
    inversion ND as [|? ? Nv ND']; subst. unfold dummies. cbn [tl]. split.
    - intros E. exists r. f_equal. destruct Hs' as [->|Hr]; auto. exfalso.
      pose proof (map_eq_In _ _ _ E s Hr) as F. cbn beta in F. rewrite String.eqb_refl in F. exact (one_zero F).
    - intros (r' & [= -> ->]). apply map_ext_in. intros a Ha. destruct (String.eqb_spec s a); auto. subst. contradiction. }
  destruct c as [s|], c' as [s'|]; unfold alike.
  - specialize (Hc s eq_refl). specialize (Hc' s' eq_refl). split.
    + intros E. left. f_equal. apply M in Hc, Hc'. destruct (levels String.compare l) as [|v r]; [destruct Hc|].
      unfold dummies in E. cbn [tl] in E. destruct Hc as [->|Hr].
      * destruct Hc' as [->|Hr']; auto. pose proof (map_eq_In _ _ _ E s' Hr') as F. cbn beta in F. rewrite String.eqb_refl in F.
        destruct (String.eqb_spec s s'); auto. exfalso. apply one_zero. auto.
      * pose proof (map_eq_In _ _ _ E s Hr) as F. cbn beta in F. rewrite String.eqb_refl in F. destruct (String.eqb_spec s' s); auto.
        exfalso. apply one_zero. auto.
    + intros [[= ->]|[[E _]|[_ E]]]; [reflexivity|discriminate|discriminate].
  - rewrite (Z s (Hc s eq_refl)). intuition discriminate.
  - split.
    + intros E. right; left. split; auto. apply (Z s' (Hc' s' eq_refl)). auto.
    + intros [E|[[_ H]|[(? & E & _) _]]]; [discriminate| |discriminate]. symmetry. apply (Z s' (Hc' s' eq_refl)). exact H.
  - intuition.
Qed.

(** ** Rows *)

Lemma app_pieces {B} : forall a c b d : list B, length a = length c -> (a ++ b = c ++ d <-> a = c /\ b = d).
Proof.
  induction a as [|x a IH]; intros [|y c] b d H; cbn [app length] in *; try discriminate; [intuition|].
  injection H as H. specialize (IH c b d H). split.
  - intros [= -> E]. apply IH in E as [-> ->]. auto.
  - intros [[= -> ->] ->]. reflexivity.
Qed.
Lemma flat_map_pieces {A B} (f g : A -> list B) t : (forall x, In x t -> length (f x) = length (g x)) ->
  (flat_map f t = flat_map g t <-> forall x, In x t -> f x = g x).
Proof.
  induction t as [|x t IH]; intros H; cbn [flat_map In]; [intuition|].
  rewrite app_pieces by (apply H; left; auto). rewrite IH by (intros; apply H; right; auto).
  split; [intros [E1 E2] z [<-|Hz]; auto|intros E; split; [apply E; auto|intros z Hz; apply E; auto]].
Qed.

Lemma index_contains name : is_user_feature name = true <-> about_user name.
Proof.
  unfold is_user_feature, about_user. set (u := "user_feature"%string). split.
  - destruct (String.index 0 u name) as [k|] eqn:E; [|discriminate]. intros _. apply String.index_correct1 in E.
    assert (S : forall m (s : string) l, String.substring m l s <> ""%string \/ l = 0%nat ->
      exists a b, s = (a ++ String.substring m l s ++ b)%string).
    { induction m as [|m IHm]; intros s l H.
      - clear H. revert l. induction s as [|c s IHs]; intros [|l]; cbn [String.substring].
        + exists ""%string, ""%string. reflexivity.
        + exists ""%string, ""%string. reflexivity.
        + exists ""%string, (String c s). reflexivity.
        + destruct (IHs l) as (a & b & Eq). clear Eq.
          assert (P : forall s l, exists b, s = (String.substring 0 l s ++ b)%string).
          { clear. induction s as [|c s IH]; intros [|l]; cbn [String.substring].
            - exists ""%string; reflexivity. - exists ""%string; reflexivity. - eexists. reflexivity.
            - destruct (IH l) as (b & E). exists b. cbn. f_equal. exact E. }
          destruct (P s l) as (b' & E'). exists ""%string, b'. cbn. f_equal. exact E'.
      - destruct s as [|c s]; [exists ""%string, ""%string; destruct l; reflexivity|]. cbn [String.substring] in *.
        destruct (IHm s l H) as (a & b & E'). exists (String c a), b. cbn. f_equal. exact E'. }
    destruct (S k name (String.length u)) as (a & b & E'). { left. rewrite E. discriminate. }
    rewrite E in E'. exists a, b. exact E'.
  - intros (a & b & ->). destruct (String.index 0 u _) as [k|] eqn:E; [reflexivity|]. exfalso.
    assert (T : forall a s, String.substring (String.length a) (String.length u) (a ++ s) = String.substring 0 (String.length u) s).
    { clear. induction a as [|c a IH]; intros s; [reflexivity|]. cbn [String.length append String.substring]. apply IH. }
    apply (String.index_correct3 0 (String.length a) u _ E); [discriminate|lia|]. rewrite T.
    cbn. destruct b; reflexivity.
Qed.
Lemma users_In t nc : In nc (filter (fun nc : string * column => is_user_feature (fst nc)) t) <-> In nc t /\ about_user (fst nc).
Proof. rewrite filter_In, index_contains. tauto. Qed.

Lemma nth_Some_In {A} (l : list (option A)) i s : nth i l None = Some s -> In (Some s) l.
Proof. intros E. rewrite <- E. apply nth_In. destruct (Nat.lt_ge_cases i (length l)); auto. rewrite nth_overflow in E by auto. discriminate. Qed.

Lemma row_nth n t i : (i < n)%nat -> nth i (get_dummies n t) [] = row_nums t i ++ row_dummies t i.
Proof. intros H. apply (nth_tab n (fun i => row_nums t i ++ row_dummies t i)). exact H. Qed.

Lemma row_equal t i j : row_nums t i ++ row_dummies t i = row_nums t j ++ row_dummies t j <-> forall nc, In nc t -> cells_alike (snd nc) i j.
Proof.
  rewrite app_pieces.
  2:{ unfold row_nums. clear. induction t as [|[nm [l|l]] t IH]; cbn; auto. }
  unfold row_nums, row_dummies. rewrite !flat_map_pieces.
  2:{ intros [nm [l|l]] _; cbn [snd]; rewrite ?dummies_length; reflexivity. }
  2:{ intros [nm [l|l]] _; reflexivity. }
  split.
  - intros [H1 H2] [nm [l|l]] Hin; cbn [snd cells_alike].
    + specialize (H2 _ Hin). cbn [snd] in H2. apply dummies_alike in H2; auto; intros s; apply nth_Some_In.
    + specialize (H1 _ Hin). cbn [snd] in H1. congruence.
  - intros H. split; intros [nm [l|l]] Hin; cbn [snd]; specialize (H _ Hin); cbn [snd cells_alike] in H; auto.
    + congruence.
    + apply dummies_alike; auto; intros s; apply nth_Some_In.
Qed.

(** ** C160 *)

(** One context row per round, and as many columns as the numeric features plus, for each categorical feature, one less
    than its number of distinct values in this log. *)
Lemma users_unique t u : user_columns t u -> u = filter (fun nc : string * column => is_user_feature (fst nc)) t.
Proof.
  induction 1 as [|nm c t u H _ IH|nm c t u H _ IH]; cbn [filter fst]; auto.
  - rewrite (proj2 (index_contains nm) H). congruence.
  - destruct (is_user_feature nm) eqn:E; auto. apply index_contains in E. contradiction.
Qed.
Theorem C160_shape : forall n t u, user_columns t u ->
  length (obd_context n t) = n /\ forall row, In row (obd_context n t) -> length row = list_sum (map (fun nc => width (snd nc)) u).
Proof.
  intros n t u Hu. apply users_unique in Hu. unfold obd_context, get_dummies. split; [rewrite map_length, seq_length; reflexivity|].
  intros row H. apply in_map_iff in H as (i & <- & _). rewrite <- Hu. clear Hu. unfold row_nums, row_dummies. rewrite app_length.
  induction u as [|[nm [l|l]] r IH]; [reflexivity| |]; cbn [map list_sum fold_right snd width flat_map] in *;
    rewrite !app_length; cbn [length]; rewrite ?dummies_length, ?levels_count; unfold list_sum in IH; lia.
Qed.

(** Two rounds get the same context exactly when the log's user features cannot tell them apart, a missing value being
    the same as the smallest value of its feature. *)
Theorem C160_same_context : forall n t i j, (i < n)%nat -> (j < n)%nat ->
  (nth i (obd_context n t) [] = nth j (obd_context n t) [] <->
   forall nm c, In (nm, c) t -> about_user nm -> cells_alike c i j).
Proof.
  intros n t i j Hi Hj. unfold obd_context. rewrite !row_nth by auto. rewrite row_equal. split.
  - intros H nm c Hin Hu. apply (H (nm, c)). apply users_In. auto.
  - intros H [nm c] Hin. apply users_In in Hin as [H1 H2]. apply (H nm c H1 H2).
Qed.

(** Without missing values nothing is lost. *)
Theorem C160_lossless : forall n t i j, (i < n)%nat -> (j < n)%nat ->
  (forall nm l k, In (nm, Cats l) t -> about_user nm -> (k < n)%nat -> nth k l None <> None) ->
  (nth i (obd_context n t) [] = nth j (obd_context n t) [] <->
   forall nm c, In (nm, c) t -> about_user nm -> cells_equal c i j).
Proof.
  intros n t i j Hi Hj Hm. rewrite C160_same_context by auto. split; intros H nm c Hin Hu; specialize (H nm c Hin Hu); destruct c as [l|l]; auto.
  - cbn [cells_alike cells_equal] in *. destruct H as [H|[[H _]|[_ H]]]; auto; exfalso; [apply (Hm nm l i)|apply (Hm nm l j)]; auto.
  - cbn [cells_alike cells_equal] in *. left. exact H.
Qed.

(** A missing user feature is encoded exactly like the feature's smallest value. *)
Theorem C160_missing_is_smallest : forall n l i j nm, (i < n)%nat -> (j < n)%nat -> about_user nm ->
  nth i l None = None -> smallest l (nth j l None) ->
  nth i (obd_context n [(nm, Cats l)]) [] = nth j (obd_context n [(nm, Cats l)]) [].
Proof.
  intros n l i j nm Hi Hj Hu H1 H2. apply C160_same_context; auto. intros nm' c [[= <- <-]|[]] _. cbn [cells_alike]. right; left. auto.
Qed.

(** Every encoded entry is 0 or 1. *)
Theorem C160_indicators : forall n t row x, (forall nm c, In (nm, c) t -> about_user nm -> exists l, c = Cats l) ->
  In row (obd_context n t) -> In x row -> x = Fin 0 \/ x = Fin 1.
Proof.
  intros n t row x Hc Hrow Hx. unfold obd_context, get_dummies in Hrow. apply in_map_iff in Hrow as (i & <- & _).
  apply in_app_or in Hx as [Hx|Hx]; unfold row_nums, row_dummies in Hx; apply in_flat_map in Hx as ([nm c] & Hin & Hx);
    apply users_In in Hin as [Hin Hu]; destruct (Hc nm c Hin Hu) as (l & ->); cbn [snd] in Hx; [destruct Hx|].
  unfold dummies in Hx. apply in_map_iff in Hx as (v & <- & _). destruct (nth i l None) as [s|]; auto. destruct (String.eqb s v); auto.
Qed.

(** The entries of one feature: the k-th of them is 1 exactly when the round's value is the (k+1)-th of the distinct
    values in increasing order, i.e. when k+1 distinct values come before it. *)
Lemma nth_rank lv : StronglySorted before lv -> forall k, (k < length lv)%nat ->
  length (filter (fun s => String.ltb s (nth k lv ""%string)) lv) = k.
Proof.
  intros S k Hk. pose proof (position_count String.compare scmp_eq scmp_sym lv S (nth k lv ""%string) (nth_In _ _ Hk)) as P.
  unfold String.ltb. rewrite <- P. revert k Hk P. induction S as [|w r Hs IH Hw]; cbn [length position_in nth]; [lia|].
  intros [|k] Hk _; [rewrite scmp_refl; reflexivity|]. rewrite Forall_forall in Hw.
  assert (B : before w (nth k r ""%string)) by (apply Hw, nth_In; lia).
  rewrite scmp_sym, B. cbn [CompOpp]. f_equal. apply IH; [lia|]. apply (position_count String.compare scmp_eq scmp_sym); auto. apply nth_In; lia.
Qed.
Theorem C160_which_entry : forall n nm l i k, about_user nm -> length l = n -> (i < n)%nat -> (k < width (Cats l))%nat ->
  nth k (nth i (obd_context n [(nm, Cats l)]) []) NaN =
  match nth i l None with
  | Some s => if Nat.eqb (length (filter (fun s' => String.ltb s' s) (values_of l))) (S k) then Fin 1 else Fin 0
  | None => Fin 0
  end.
Proof.
  intros n nm l i k Hu Hl Hi Hk. unfold obd_context. cbn [filter fst]. rewrite (proj2 (index_contains nm) Hu). rewrite row_nth by auto.
  unfold row_nums, row_dummies. cbn [flat_map snd app]. rewrite app_nil_r. cbn [width] in Hk. rewrite <- levels_count in Hk.
  assert (C : forall s, length (filter (fun s' => String.ltb s' s) (values_of l)) = length (filter (fun s' => String.ltb s' s) (levels String.compare l))).
  { intros s. apply filter_perm. apply NoDup_Permutation; [apply NoDup_nodup|apply slevels_NoDup|]. intros z. unfold values_of. rewrite In_slevels, nodup_In, In_present. tauto. }
  pose proof (slevels_sorted l) as SS. pose proof (slevels_NoDup l) as ND. assert (M : forall z, In (Some z) l -> In z (levels String.compare l)) by (intros z; apply In_slevels).
  unfold dummies. set (f := fun v => match nth i l None with Some s => if String.eqb s v then Fin 1 else Fin 0 | None => Fin 0 end).
  destruct (levels String.compare l) as [|v0 r] eqn:E; [cbn in Hk; lia|]. cbn [tl length pred] in *.
  rewrite (nth_indep _ NaN (f ""%string)) by (rewrite map_length; lia). rewrite map_nth. unfold f.
  destruct (nth i l None) as [s|] eqn:Es; auto. rewrite C. apply nth_Some_In, M in Es.
  assert (R := nth_rank _ SS (S k) ltac:(cbn; lia)). cbn [nth] in R.
  destruct (String.eqb_spec s (nth k r ""%string)) as [->|N].
  - rewrite R, Nat.eqb_refl. reflexivity.
  - destruct (Nat.eqb_spec (length (filter (fun s' => String.ltb s' s) (v0 :: r))) (S k)) as [R'|]; auto. exfalso. apply N.
    apply (In_nth _ _ ""%string) in Es as (k' & Hk' & E'). pose proof (nth_rank _ SS k' Hk') as R2. rewrite E' in R2. rewrite R' in R2. subst k'.
    symmetry. exact E'.
Qed.

(** Columns whose name does not contain "user_feature" do not enter the context: in particular not the user-item
    affinity columns. *)
Theorem C160_other_columns : forall n a b nm c, ~ about_user nm -> obd_context n (a ++ (nm, c) :: b) = obd_context n (a ++ b).
Proof.
  intros n a b nm c H. unfold obd_context. f_equal. rewrite !filter_app. cbn [filter fst]. destruct (is_user_feature nm) eqn:E; auto.
  apply index_contains in E. contradiction.
Qed.
Theorem C160_affinity_ignored : ~ about_user "user-item_affinity_0" /\ about_user "user_feature_0".
Proof. rewrite <- !index_contains. split; [discriminate|reflexivity]. Qed.

(** The encoding of a round does not depend on the order of the rounds. *)
Lemma reorder_levels n l p : length l = n -> Permutation p (seq 0 n) ->
  levels String.compare (map (fun k => nth k l None) p) = levels String.compare l.
Proof.
  intros Hl Hp. apply (levels_ext String.compare scmp_eq scmp_sym scmp_trans). intros z. rewrite in_map_iff. split.
  - intros (k & E & _). apply nth_Some_In in E. exact E.
  - intros H. apply (In_nth _ _ None) in H as (k & Hk & E). exists k. split; auto.
    eapply Permutation_in; [symmetry; exact Hp|]. apply in_seq. lia.
Qed.
Lemma reorder_filter p t : filter (fun nc : string * column => is_user_feature (fst nc)) (reorder p t) = reorder p (filter (fun nc : string * column => is_user_feature (fst nc)) t).
Proof. unfold reorder. induction t as [|[nm c] t IH]; cbn; auto. destruct (is_user_feature nm); cbn; rewrite IH; auto. Qed.
Theorem C160_order_free : forall n t p, rows_are n t -> Permutation p (seq 0 n) ->
  obd_context n (reorder p t) = map (fun k => nth k (obd_context n t) []) p.
Proof.
  intros n t p Hr Hp. unfold obd_context. rewrite reorder_filter. set (u := filter _ t).
  assert (Hu : rows_are n u). { intros nm c Hin. apply users_In in Hin as [Hin _]. exact (Hr nm c Hin). }
  clearbody u. assert (Lp : length p = n) by (rewrite (Permutation_length Hp), seq_length; auto).
  apply (nth_ext _ _ [] []). { unfold get_dummies. rewrite !map_length, seq_length. auto. }
  intros i Hi. unfold get_dummies in Hi. rewrite map_length, seq_length in Hi.
  rewrite row_nth by auto. rewrite (nth_indep _ [] (nth 0 (get_dummies n u) [])) by (rewrite map_length; lia).
  rewrite (map_nth (fun k => nth k (get_dummies n u) []) p 0%nat i).
  assert (Hk : (nth i p 0 < n)%nat). { assert (In (nth i p 0%nat) (seq 0 n)) by (eapply Permutation_in; [exact Hp|apply nth_In; lia]). apply in_seq in H. lia. }
  rewrite row_nth by auto. f_equal; unfold row_nums, row_dummies, reorder; rewrite flat_map_concat_map, map_map, flat_map_concat_map; f_equal;
    apply map_ext_in; intros [nm [l|l]] Hin; cbn [snd]; auto; specialize (Hu nm _ Hin); cbn in Hu.
  - f_equal. rewrite (nth_indep _ NaN (nth 0 l NaN)) by (rewrite map_length; lia). apply (map_nth (fun k => nth k l NaN)).
  - rewrite (reorder_levels n) by auto. f_equal. rewrite (nth_indep _ None (nth 0 l None)) by (rewrite map_length; lia). apply (map_nth (fun k => nth k l None)).
Qed.

(** ** The items *)

Lemma ncmp_eq x y : num_cmp x y = Eq <-> x = y.
Proof.
  destruct x as [a| | |], y as [b| | |]; cbn; try (split; congruence). destruct (Rltb a b) eqn:E1; [|destruct (Rltb b a) eqn:E2].
  - apply Rltb_true in E1. split; [discriminate|]. intros [= ->]. lra.
  - apply Rltb_true in E2. split; [discriminate|]. intros [= ->]. lra.
  - apply Rltb_false in E1. apply Rltb_false in E2. split; auto. intros _. f_equal. lra.
Qed.
Lemma ncmp_sym x y : num_cmp y x = CompOpp (num_cmp x y).
Proof.
  destruct x as [a| | |], y as [b| | |]; cbn; auto. destruct (Rltb a b) eqn:E1, (Rltb b a) eqn:E2; auto.
  apply Rltb_true in E1. apply Rltb_true in E2. lra.
Qed.
Lemma ncmp_trans x y z : num_cmp x y = Lt -> num_cmp y z = Lt -> num_cmp x z = Lt.
Proof.
  destruct x as [a| | |], y as [b| | |], z as [c| | |]; cbn; auto; try discriminate; try (destruct (Rltb _ _); discriminate).
  destruct (Rltb a b) eqn:E1; [|destruct (Rltb b a); discriminate]. destruct (Rltb b c) eqn:E2; [|destruct (Rltb c b); discriminate].
  apply Rltb_true in E1. apply Rltb_true in E2. assert (E : Rltb a c = true) by (apply Rltb_true; lra). rewrite E. auto.
Qed.
Lemma num_cell_some v z : num_cell v = Some z <-> v = z /\ z <> NaN.
Proof. destruct v; cbn; split; try (intros [= <-]; split; congruence); intros [-> H]; congruence. Qed.
Lemma num_cell_inj v w : num_cell v = num_cell w -> v = w.
Proof. destruct v, w; cbn; congruence. Qed.

Lemma encode_rank n c i : (match c with Cats l => length l = n | Nums l => length l = n end) -> (i < n)%nat ->
  nth i (encode_column c) 0%nat = rank c i.
Proof.
  intros Hl Hi. destruct c as [l|l]; cbn [encode_column rank]; unfold label_encode.
  - rewrite (nth_indep _ 0%nat (label_code String.compare (levels String.compare l) None)) by (rewrite map_length; lia). rewrite map_nth.
    rewrite (code_count String.compare scmp_eq scmp_sym scmp_trans l (values_of l)).
    + reflexivity.
    + apply NoDup_nodup.
    + intros z. unfold values_of. rewrite nodup_In. apply In_present.
    + apply nth_In. lia.
  - rewrite (nth_indep _ 0%nat (label_code num_cmp (levels num_cmp (map num_cell l)) (num_cell NaN))) by (rewrite !map_length; lia).
    rewrite map_nth, map_nth.
    rewrite (code_count num_cmp ncmp_eq ncmp_sym ncmp_trans _ (nodup num_eq_dec (filter (fun v => match v with NaN => false | _ => true end) l))).
    + f_equal. apply filter_ext_in. intros v Hv. apply nodup_In, filter_In in Hv as [_ Hv].
      destruct (nth i l NaN) as [b| | |], v as [a| | |]; try discriminate; cbn; auto. destruct (Rltb a b), (Rltb b a); auto.
    + apply NoDup_nodup.
    + intros z. rewrite nodup_In, filter_In, in_map_iff. split.
      * intros [H1 H2]. exists z. split; auto. apply num_cell_some. split; auto. intros ->. discriminate.
      * intros (v & E & H). apply num_cell_some in E as [-> E]. split; auto. destruct z; congruence.
    + change (num_cell (nth i l NaN)) with (num_cell (nth i l NaN)). apply in_map. apply nth_In. lia.
Qed.
Lemma encode_inj n c i j : (match c with Cats l => length l = n | Nums l => length l = n end) -> (i < n)%nat -> (j < n)%nat ->
  (nth i (encode_column c) 0%nat = nth j (encode_column c) 0%nat <-> cells_equal c i j).
Proof.
  intros Hl Hi Hj. destruct c as [l|l]; cbn [encode_column cells_equal]; unfold label_encode.
  - rewrite !(nth_indep _ 0%nat (label_code String.compare (levels String.compare l) None)) by (rewrite map_length; lia). rewrite !map_nth.
    split; [|intros ->; auto]. apply (code_inj String.compare scmp_eq scmp_sym scmp_trans); apply nth_In; lia.
  - rewrite !(nth_indep _ 0%nat (label_code num_cmp (levels num_cmp (map num_cell l)) (num_cell NaN))) by (rewrite !map_length; lia).
    rewrite !map_nth. split; [|intros ->; auto]. intros E. apply num_cell_inj.
    apply (code_inj num_cmp ncmp_eq ncmp_sym ncmp_trans) in E; auto; apply in_map, nth_In; lia.
Qed.

Lemma item_columns_unique t u : item_columns t u ->
  u = filter (fun nc : string * column => negb (String.eqb (fst nc) "item_id" || String.eqb (fst nc) "item_feature_0")) t.
Proof.
  induction 1 as [|nm c t u H1 H2 _ IH|nm c t u H _ IH]; cbn [filter fst]; auto.
  - rewrite (proj2 (String.eqb_neq _ _) H1), (proj2 (String.eqb_neq _ _) H2). cbn. congruence.
  - destruct H as [->| ->]; cbn; auto.
Qed.
Lemma column_of_some t nm c : column_of t nm = Ok c -> In (nm, c) t.
Proof. induction t as [|[k d] t IH]; cbn; [discriminate|]. destruct (String.eqb_spec k nm); [intros [= ->]; subst; auto|auto]. Qed.
Lemma column_of_err t nm : (forall c, ~ In (nm, c) t) -> column_of t nm = Err KeyError.
Proof.
  induction t as [|[k d] t IH]; cbn; auto. intros H. destruct (String.eqb_spec k nm); [subst; exfalso; apply (H d); auto|]. apply IH. intros c Hc. apply (H c). auto.
Qed.
Lemma column_of_in t nm c : In (nm, c) t -> exists c', column_of t nm = Ok c'.
Proof. induction t as [|[k d] t IH]; cbn; [tauto|]. intros [[= -> ->]|H]; [rewrite String.eqb_refl; eauto|]. destruct (String.eqb k nm); eauto. Qed.

(** Line [i] of the action context: the rank of each encoded feature of line [i] of the file, then its item_feature_0. *)
Theorem C160_item_ranks : forall m t u f0 rows, rows_are m t -> item_columns t u -> column_of t "item_feature_0" = Ok f0 ->
  obd_action_context m t = Ok rows ->
  length rows = m /\ forall i, (i < m)%nat ->
    nth i rows ([], inl NaN) = (map (fun nc => rank (snd nc) i) u,
      match f0 with Nums l => inl (nth i l NaN) | Cats l => inr (nth i l None) end).
Proof.
  intros m t u f0 rows Hr Hu Hf H. apply item_columns_unique in Hu. unfold obd_action_context in H. rewrite Hf in H. cbn [bind] in H.
  destruct (column_of t "item_id"); [|discriminate]. cbn [bind] in H. rewrite <- Hu in H. injection H as <-.
  split; [rewrite map_length, seq_length; auto|]. intros i Hi.
  rewrite (nth_tab m (fun i => (map (fun l => nth i l 0%nat) (map (fun nc => encode_column (snd nc)) u), raw_entry f0 i))) by auto.
  f_equal. rewrite map_map. apply map_ext_in. intros [nm c] Hin. cbn [snd]. apply (encode_rank m); auto.
  rewrite Hu in Hin. apply filter_In in Hin as [Hin _]. exact (Hr nm c Hin).
Qed.

(** Two lines get the same codes exactly when they agree in every encoded feature. *)
Theorem C160_items_told_apart : forall m t rows i j, rows_are m t -> obd_action_context m t = Ok rows -> (i < m)%nat -> (j < m)%nat ->
  (fst (nth i rows ([], inl NaN)) = fst (nth j rows ([], inl NaN)) <->
   forall nm c, In (nm, c) t -> nm <> "item_id"%string -> nm <> "item_feature_0"%string -> cells_equal c i j).
Proof.
  intros m t rows i j Hr H Hi Hj. unfold obd_action_context in H. destruct (column_of t "item_feature_0") as [f0|]; [|discriminate].
  destruct (column_of t "item_id"); [|discriminate]. cbn [bind] in H. injection H as <-.
  set (u := filter _ t). rewrite !(nth_tab m (fun i => (map (fun l => nth i l 0%nat) (map (fun nc => encode_column (snd nc)) u), raw_entry f0 i))) by auto.
  cbn [fst]. rewrite !map_map. split.
  - intros E nm c Hin N1 N2. apply (encode_inj m); auto. { exact (Hr nm c Hin). }
    apply (map_eq_In _ _ _ E (nm, c)). unfold u. apply filter_In. split; auto. cbn [fst].
    rewrite (proj2 (String.eqb_neq _ _) N1), (proj2 (String.eqb_neq _ _) N2). reflexivity.
  - intros E. apply map_ext_in. intros [nm c] Hin. unfold u in Hin. apply filter_In in Hin as [Hin N]. cbn [fst snd] in *.
    apply negb_true_iff, orb_false_iff in N as [N1 N2]. apply (encode_inj m); auto. { exact (Hr nm c Hin). }
    apply (E nm c Hin); apply String.eqb_neq; auto.
Qed.

(** The frame must have the two named columns. *)
Theorem C160_item_columns_required : forall m t,
  (exists rows, obd_action_context m t = Ok rows) <-> (exists c, In ("item_feature_0"%string, c) t) /\ (exists c, In ("item_id"%string, c) t).
Proof.
  intros m t. unfold obd_action_context. split.
  - intros (rows & H). destruct (column_of t "item_feature_0") as [f0|] eqn:E1; [|discriminate]. cbn [bind] in H.
    destruct (column_of t "item_id") as [c|] eqn:E2; [|discriminate]. apply column_of_some in E1, E2. eauto.
  - intros [(c & H1) (d & H2)]. apply column_of_in in H1 as (c' & ->). apply column_of_in in H2 as (d' & ->). cbn [bind]. eauto.
Qed.
Theorem C160_item_column_missing : forall m t nm, nm = "item_id"%string \/ nm = "item_feature_0"%string -> (forall c, ~ In (nm, c) t) ->
  obd_action_context m t = Err KeyError.
Proof.
  intros m t nm H N. unfold obd_action_context. apply column_of_err in N. destruct H as [->| ->].
  - rewrite N. destruct (column_of t "item_feature_0") eqn:E; cbn [bind]; auto.
    revert E. clear. induction t as [|[k d] t IH]; cbn; [congruence|]. destruct (String.eqb k _); [discriminate|auto].
  - rewrite N. reflexivity.
Qed.

(** The item ids are not looked at: with the same lines in another order, the rows of the action context are in that
    other order, although the log's actions are item ids. *)
Theorem C160_ids_unused : forall m ids ids' a b, obd_action_context m (a ++ ("item_id"%string, ids) :: b) = obd_action_context m (a ++ ("item_id"%string, ids') :: b).
Proof.
  intros m ids ids' a b. unfold obd_action_context. rewrite !filter_app. cbn [filter fst String.eqb].
  assert (E : column_of (a ++ ("item_id"%string, ids) :: b) "item_feature_0" = column_of (a ++ ("item_id"%string, ids') :: b) "item_feature_0").
  { induction a as [|[k d] a IH]; cbn [app column_of]; [reflexivity|]. destruct (String.eqb k _); auto. }
  rewrite E. destruct (column_of (a ++ ("item_id"%string, ids') :: b) "item_feature_0"); cbn [bind]; [|reflexivity].
  destruct (column_of_in _ _ _ (in_elt ("item_id"%string, ids) a b)) as (c & ->).
  destruct (column_of_in _ _ _ (in_elt ("item_id"%string, ids') a b)) as (c' & ->). reflexivity.
Qed.

(** ** The hypotheses can be met, and the findings are real *)

Definition ob_log : table := [("user-item_affinity_0", Nums [Fin 3; Fin 4; Fin 5]); ("user_feature_0", Cats [Some "b"; None; Some "a"]);
  ("user_feature_1", Cats [Some "x"; Some "x"; Some "x"])]%string.
Example C160_log_example : rows_are 3 ob_log /\ obd_context 3 ob_log = [[Fin 1]; [Fin 0]; [Fin 0]] /\
  smallest [Some "b"; None; Some "a"]%string (Some "a"%string).
Proof.
  split; [|split].
  - intros nm c H. cbn in H. repeat destruct H as [[= <- <-]|H]; try reflexivity. destruct H.
  - reflexivity.
  - exists "a"%string. split; [auto|]. split; [cbn; auto|]. intros s' [[= <-]|[H|[[= <-]|[]]]]; [right; reflexivity|discriminate|auto].
Qed.
(** Two logs of one campaign with different values have contexts of different width. *)
Example C160_widths_differ : obd_context 2 [("user_feature_0", Cats [Some "a"; Some "b"])]%string = [[Fin 0]; [Fin 1]] /\
  obd_context 2 [("user_feature_0", Cats [Some "a"; Some "a"])]%string = [[]; []].
Proof. split; reflexivity. Qed.
(** A file that lists item 1 first: line 0 of the action context, used for action 0, holds the features of item 1. *)
Example C160_items_by_line : obd_action_context 2 [("item_id", Nums [Fin 1; Fin 0]); ("item_feature_0", Nums [Fin 7; Fin 8]); ("item_feature_1", Cats [Some "q"; Some "p"])]%string =
  Ok [([1%nat], inl (Fin 7)); ([0%nat], inl (Fin 8))].
Proof. reflexivity. Qed.

Print Assumptions C160_shape.
Print Assumptions C160_same_context.
Print Assumptions C160_lossless.
Print Assumptions C160_missing_is_smallest.
Print Assumptions C160_indicators.
Print Assumptions C160_other_columns.
Print Assumptions C160_affinity_ignored.
Print Assumptions C160_order_free.
Print Assumptions C160_item_ranks.
Print Assumptions C160_items_told_apart.
Print Assumptions C160_item_columns_required.
Print Assumptions C160_item_column_missing.
Print Assumptions C160_ids_unused.
Print Assumptions C160_which_entry.
