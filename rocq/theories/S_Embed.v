(** * S_Embed: logs with action embeddings, the data-generating process, and Lepski-style selection.
    No model code is used here. *)

From Coq Require Import Reals List ZArith.
From Verif Require Import Num S_Base S_Prob S_Estimators.
Import ListNotations.
Open Scope R_scope.

Fixpoint prodn (n : nat) (f : nat -> R) : R :=
  match n with O => 1 | S m => prodn m f * f m end.

(** A log with [D] categorical embedding dimensions of [C] categories each. *)
Record elog := mkELog {
  el_n : nat; el_K : nat; el_L : nat; el_C : nat; el_D : nat;
  el_r : nat -> R; el_a : nat -> nat; el_pos : nat -> nat;
  el_pib : nat -> nat -> nat -> R;      (* behaviour policy: round, action, position *)
  el_pie : nat -> nat -> nat -> R;      (* evaluation policy: round, action, position *)
  el_emb : nat -> nat -> nat;           (* observed category: round, dimension *)
  el_pea : nat -> nat -> nat -> R       (* category distribution: action, category, dimension *)
}.

(** The plain log with a given policy in the role of the evaluation policy. *)
Definition plain (l : elog) (pi : nat -> nat -> nat -> R) (p : nat -> R) : blog :=
  {| lg_n := el_n l; lg_K := el_K l; lg_L := el_L l; lg_r := el_r l; lg_a := el_a l; lg_pos := el_pos l;
     lg_p := p; lg_pi := pi; lg_q := fun _ _ _ => 0 |}.
Definition as_log (l : elog) : blog := plain l (el_pie l) (fun i => el_pib l i (el_a l i) (el_pos l i)).

(** Probability of category [c] in dimension [d] when actions follow [pi] in round [i]. *)
Definition marg (l : elog) (pi : nat -> nat -> nat -> R) (i d c : nat) : R :=
  sumn (el_K l) (fun a => pi i a (el_pos l i) * el_pea l a c d).

Definition e_embeds (l : elog) := tab (el_n l) (fun i => tabZ (el_D l) (el_emb l i)).
Definition e_rewards (l : elog) := tabF (el_n l) (el_r l).
Definition e_actions (l : elog) := tabZ (el_n l) (el_a l).
Definition e_pib (l : elog) := tab3F (el_n l) (el_K l) (el_L l) (el_pib l).
Definition e_pie (l : elog) := tab3F (el_n l) (el_K l) (el_L l) (el_pie l).
Definition e_pea (l : elog) := tab3F (el_K l) (el_C l) (el_D l) (el_pea l).

(** Accepted by the library, and the logged categories have positive probability under logging. *)
Record e_accepted (l : elog) : Prop := {
  ea_b : accepted (plain l (el_pib l) (fun _ => 1));
  ea_e : accepted (plain l (el_pie l) (fun _ => 1));
  ea_D : (0 < el_D l)%nat;
  ea_emb : forall i d, (i < el_n l)%nat -> (d < el_D l)%nat -> (el_emb l i d < el_C l)%nat;
  ea_supp : forall i d, (i < el_n l)%nat -> (d < el_D l)%nat -> 0 < marg l (el_pib l) i d (el_emb l i d)
}.

(** Marginal importance weight: the product over dimensions of ratios of marginals. *)
Definition e_weight (l : elog) (i : nat) : R :=
  prodn (el_D l) (fun d => marg l (el_pie l) i d (el_emb l i d) / marg l (el_pib l) i d (el_emb l i d)).
Definition spec_mipw (l : elog) : R := avg (el_n l) (fun i => e_weight l i * el_r l i).

(** Every action has its own category [cat a], in the single dimension. *)
Definition one_hot (l : elog) (cat : nat -> nat) : Prop :=
  el_D l = 1%nat /\
  (forall a, (a < el_K l)%nat -> (cat a < el_C l)%nat) /\
  (forall a b, (a < el_K l)%nat -> (b < el_K l)%nat -> cat a = cat b -> a = b) /\
  (forall a c, (a < el_K l)%nat -> el_pea l a c 0 = if Nat.eqb c (cat a) then 1 else 0) /\
  (forall i, (i < el_n l)%nat -> el_emb l i 0 = cat (el_a l i)).

(** ** Environment: context, action, embedding vector given the action, reward given the embedding *)
Record eenv (X : Type) := mkEEnv {
  en_n : nat; en_K : nat; en_L : nat; en_C : nat; en_D : nat;
  en_pos : nat -> nat;
  en_ctx : nat -> dist X;
  en_pb : X -> nat -> nat -> R;            (* context, position, action *)
  en_pe : X -> nat -> nat -> R;
  en_emb : nat -> dist (list nat);         (* embedding vector of an action *)
  en_rd : X -> nat -> list nat -> dist R   (* reward: context, position, embedding *)
}.
Arguments mkEEnv {X}. Arguments en_n {X}. Arguments en_K {X}. Arguments en_L {X}. Arguments en_C {X}.
Arguments en_D {X}. Arguments en_pos {X}. Arguments en_ctx {X}. Arguments en_pb {X}. Arguments en_pe {X}.
Arguments en_emb {X}. Arguments en_rd {X}.

Record eenv_ok {X : Type} (e : eenv X) : Prop := {
  en_n0 : (0 < en_n e)%nat; en_D0 : (0 < en_D e)%nat;
  en_posL : forall i, (i < en_n e)%nat -> (en_pos e i < en_L e)%nat;
  en_ctxd : forall i, (i < en_n e)%nat -> is_dist (en_ctx e i);
  en_pb0 : forall x s a, (a < en_K e)%nat -> 0 <= en_pb e x s a;
  en_pb1 : forall x s, sumn (en_K e) (en_pb e x s) = 1;
  en_pe0 : forall x s a, (a < en_K e)%nat -> 0 <= en_pe e x s a;
  en_pe1 : forall x s, sumn (en_K e) (en_pe e x s) = 1;
  en_embd : forall a, (a < en_K e)%nat -> is_dist (en_emb e a);
  en_embv : forall a v p, (a < en_K e)%nat -> In (v, p) (en_emb e a) ->
              length v = en_D e /\ forall d, (d < en_D e)%nat -> (nth d v 0 < en_C e)%nat;
  en_rdd : forall x s v, is_dist (en_rd e x s v)
}.

(** The embedding's distribution when actions follow [pi]. *)
Definition emb_under {X} (e : eenv X) (pi : nat -> R) : dist (list nat) := dbind (dtab (en_K e) pi) (en_emb e).
(** Probability of an exact embedding vector / of a category in one dimension. *)
Definition pr (d : dist (list nat)) (v : list nat) : R :=
  expect d (fun u => if list_eq_dec Nat.eq_dec u v then 1 else 0).
Definition pr_dim (d : dist (list nat)) (k c : nat) : R :=
  expect d (fun u => if Nat.eqb (nth k u 0%nat) c then 1 else 0).

(** Common embedding support: weaker than common support of actions. *)
Definition emb_support {X} (e : eenv X) : Prop :=
  forall x s v, 0 < pr (emb_under e (en_pe e x s)) v -> 0 < pr (emb_under e (en_pb e x s)) v.

(** Under both policies the embedding dimensions are independent given the context. *)
Definition factorises {X} (e : eenv X) : Prop :=
  forall x s v, length v = en_D e ->
    pr (emb_under e (en_pb e x s)) v = prodn (en_D e) (fun d => pr_dim (emb_under e (en_pb e x s)) d (nth d v 0%nat)) /\
    pr (emb_under e (en_pe e x s)) v = prodn (en_D e) (fun d => pr_dim (emb_under e (en_pe e x s)) d (nth d v 0%nat)).

Definition e_round {X} (e : eenv X) (i : nat) : dist (X * nat * list nat * R) :=
  dbind (en_ctx e i) (fun x =>
  dbind (dtab (en_K e) (en_pb e x (en_pos e i))) (fun a =>
  dbind (en_emb e a) (fun v =>
  dmap (fun r => (x, a, v, r)) (en_rd e x (en_pos e i) v)))).
Definition e_logs {X} (e : eenv X) : dist (list (X * nat * list nat * R)) := dprod (en_n e) (e_round e).

(** Value of the evaluation policy. *)
Definition e_value {X} (e : eenv X) : R :=
  avg (en_n e) (fun i => expect (en_ctx e i) (fun x =>
    sumn (en_K e) (fun a => en_pe e x (en_pos e i) a *
      expect (en_emb e a) (fun v => expect (en_rd e x (en_pos e i) v) (fun r => r))))).

(** The log handed to the library for outcome [o]; [p_e_a] holds the true per-dimension marginals. *)
Definition elog_of {X} (e : eenv X) (o : list (X * nat * list nat * R)) : elog :=
  {| el_n := en_n e; el_K := en_K e; el_L := en_L e; el_C := en_C e; el_D := en_D e;
     el_r := fun i => match nth_error o i with Some (_, _, _, r) => r | None => 0 end;
     el_a := fun i => match nth_error o i with Some (_, a, _, _) => a | None => 0%nat end;
     el_pos := en_pos e;
     el_pib := fun i a s => match nth_error o i with Some (x, _, _, _) => en_pb e x s a | None => 0 end;
     el_pie := fun i a s => match nth_error o i with Some (x, _, _, _) => en_pe e x s a | None => 0 end;
     el_emb := fun i d => match nth_error o i with Some (_, _, v, _) => nth d v 0%nat | None => 0%nat end;
     el_pea := fun a c d => pr_dim (en_emb e a) d c |}.

(** ** Selection of embedding dimensions *)

(** Candidates are (estimate, width) pairs in the order in which they are tested.  A candidate is
    admissible when its estimate agrees with every earlier one up to the widths. *)
Definition agrees (cand earlier : R * R) : Prop :=
  Rabs (fst earlier - fst cand) <= snd cand + (sqrt 6 - 1) * snd earlier.
Definition admissible (cs : list (R * R)) (i : nat) : Prop :=
  forall j, (j < i)%nat -> agrees (nth i cs (0, 0)) (nth j cs (0, 0)).

(** Some candidate is rejected and [v] is the estimate tested just before the first rejected one ... *)
Definition stops_at_rejection (cs : list (R * R)) (v : R) : Prop :=
  exists m, (S m < length cs)%nat /\ (forall i, (i <= m)%nat -> admissible cs i) /\
    ~ admissible cs (S m) /\ v = fst (nth m cs (0, 0)).
(** ... or none is rejected and [v] is the last estimate but one. *)
Definition last_but_one (cs : list (R * R)) (v : R) : Prop :=
  exists m, length cs = S (S m) /\ (forall i, (i <= S m)%nat -> admissible cs i) /\
    v = fst (nth m cs (0, 0)).

(** The log seen through a selection [s] of embedding dimensions, and its estimate and width: the
    estimate is MIPW on those dimensions, the width is t * standard error. *)
Definition restrict (l : elog) (s : list nat) : elog :=
  {| el_n := el_n l; el_K := el_K l; el_L := el_L l; el_C := el_C l; el_D := length s;
     el_r := el_r l; el_a := el_a l; el_pos := el_pos l; el_pib := el_pib l; el_pie := el_pie l;
     el_emb := fun i d => el_emb l i (nth d s 0%nat);
     el_pea := fun a c d => el_pea l a c (nth d s 0%nat) |}.
Definition sample_var (n : nat) (f : nat -> R) : R := avg n (fun i => (f i - avg n f) * (f i - avg n f)).
Definition dim_estimate (l : elog) (T : R) (s : list nat) : R * R :=
  (spec_mipw (restrict l s),
   sqrt (sample_var (el_n l) (fun i => e_weight (restrict l s) i * el_r l i) / (INR (el_n l) - 1)) * T).

(** Subsets of [k] of the [n] dimensions, as increasing lists. *)
Inductive increasing : list nat -> Prop :=
| inc_nil : increasing []
| inc_cons : forall x l, (forall y, In y l -> (x < y)%nat) -> increasing l -> increasing (x :: l).
Definition subset (n k : nat) (s : list nat) : Prop :=
  increasing s /\ length s = k /\ forall x, In x s -> (x < n)%nat.

(** A list of subsets tested widest first. *)
Definition widest_first (est : list nat -> R * R) (level : list (list nat)) : Prop :=
  forall i j, (i < j < length level)%nat -> snd (est (nth j level [])) <= snd (est (nth i level [])).

(** Exact selection visits all subsets of [k], then of [k-1], ..., down to [m] dimensions. *)
Inductive exact_visits (est : list nat -> R * R) (n m : nat) : nat -> list (list nat) -> Prop :=
| ev_done : forall k, (k < m)%nat -> exact_visits est n m k []
| ev_level : forall k level rest, (m <= k)%nat -> NoDup level -> (forall s, In s level <-> subset n k s) ->
    widest_first est level -> exact_visits est n m (k - 1) rest -> exact_visits est n m k (level ++ rest).

(** Greedy selection visits, from the current dimensions [feat], every set obtained by dropping one
    dimension, and continues from the one of smallest width (visited last). *)
Definition drop (d : nat) (feat : list nat) : list nat := filter (fun f => negb (Nat.eqb f d)) feat.
Inductive greedy_visits (est : list nat -> R * R) (m : nat) : list nat -> list (list nat) -> Prop :=
| gv_done : forall feat, (length feat <= m)%nat -> greedy_visits est m feat []
| gv_level : forall feat level rest, (m < length feat)%nat ->
    (exists ds, level = map (fun d => drop d feat) ds /\ NoDup ds /\ forall d, In d ds <-> In d feat) ->
    widest_first est level -> greedy_visits est m (last level []) rest ->
    greedy_visits est m feat (level ++ rest).

(** ** Estimated weights *)

(** [U] lists the logged actions in increasing order; the classifier gives, for round [i], the
    probabilities [post i a] of the logged actions [a] given context and embedding. *)
Definition logged_actions (l : elog) (U : list nat) : Prop :=
  increasing U /\ forall a, In a U <-> exists i, (i < el_n l)%nat /\ el_a l i = a.
Definition ratio (l : elog) (i a : nat) : R :=
  if Req_EM_T (el_pib l i a (el_pos l i)) 0 then 0
  else el_pie l i a (el_pos l i) / el_pib l i a (el_pos l i).
(** Posterior-weighted average of the vanilla importance ratios of the logged actions. *)
Definition est_weight (l : elog) (U : list nat) (post : nat -> nat -> R) (i : nat) : R :=
  fold_right (fun a acc => ratio l i a * post i a + acc) 0 U.
