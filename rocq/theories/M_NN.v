(** * M_NN: the networks of the learners, and their [fit] methods around the gradient steps.

    Model of parts of obp/policy/offline.py and obp/policy/offline_continuous.py.  Networks are evaluated over the
    real numbers.  What autograd and the optimiser do to the parameters is a function argument ([update]), and so are
    the random permutations. *)

From Coq Require Import Reals List ZArith Bool.
From Verif Require Import Num NpList M_Utils M_Feedback M_Cont M_Offline M_Init.
Import ListNotations.
Open Scope R_scope.

(** ** Networks *)

(** [nn.Linear]: weight matrix (outputs x inputs) and bias.  Models: offline.py 931-938, 1656-1660. *)
Record layer : Type := mkLayer { ly_w : list (list R); ly_b : list R }.
(** Models: offline.py 931-938, 1656-1660. *)
Definition dotp (u v : list R) : R := fold_right (fun q acc => fst q * snd q + acc) 0 (combine u v).
(** Models: offline.py 931-938, 1656-1660. *)
Definition linear (l : layer) (x : list R) : list R := map (fun q => dotp (fst q) x + snd q) (combine (ly_w l) (ly_b l)).

(** [nn.Identity], [nn.Sigmoid], [nn.Tanh], [nn.ReLU], [nn.ELU].  Models: offline.py 912-926, 1638-1652. *)
Definition act_fun (a : activation) (x : R) : R :=
  match a with
  | AIdentity => x
  | ALogistic => 1 / (1 + exp (- x))
  | ATanh => (exp x - exp (- x)) / (exp x + exp (- x))
  | ARelu => if Rltb x 0 then 0 else x
  | AElu => if Rltb 0 x then x else exp x - 1
  end.

(** [nn.Sequential]: linear layers with the activation in between.  Models: offline.py 928-940, 1654-1660. *)
Fixpoint forward (a : activation) (layers : list layer) (x : list R) : list R :=
  match layers with
  | [] => x
  | [l] => linear l x
  | l :: r => forward a r (map (act_fun a) (linear l x))
  end.

(** [nn.Softmax(dim=1)] on one row.  Models: offline.py 938. *)
Definition softmax_row (l : list R) : list R := map (fun v => exp v / fold_right Rplus 0 (map exp l)) l.

(** The network of an architecture with given parameters, on one row.  Models: offline.py 928-940, 1654-1660. *)
Definition network (ar : arch) (params : list layer) (x : list R) : list R :=
  let y := forward (ar_act ar) params x in if ar_softmax ar then softmax_row y else y.

(** [context.shape[1] != self.dim_context].  Models: offline.py 1326-1330, 1388-1391, 1431-1435, 1857-1861. *)
Definition check_dim (dim cols : nat) : res unit := raise_if (negb (Nat.eqb cols dim)) ValueError.

(** [NNPolicyLearner.predict_proba]; [cols] is [context.shape[1]].  Models: offline.py 1431-1440. *)
Definition policy_predict_proba (dim : nat) (ar : arch) (params : list layer) (cols : nat) (context : list (list R)) : res arr3 :=
  check_dim dim cols ;;;
  Ok (nn_predict_proba (map (fun x => map Fin (network ar params x)) context)).

(** [NNPolicyLearner.predict].  Models: offline.py 1326-1340. *)
Definition policy_predict (dim K : nat) (ar : arch) (params : list layer) (cols : nat) (context : list (list R)) : res arr3 :=
  check_dim dim cols ;;;
  nn_predict (length context) K (map (fun x => map Fin (network ar params x)) context).

(** [QFuncEstimator.predict] on a tensor with [ndim] dimensions (a tensor in any case: utils.py 198-205).
    Models: offline.py 1857-1864 and utils.py 198-205. *)
Definition q_predict_rewards (dim : nat) (ar : arch) (params : list layer) (ndim cols : nat) (context : list (list R)) : res (list (list R)) :=
  raise_if (negb (Nat.eqb ndim 2)) ValueError ;;;
  check_dim dim cols ;;;
  Ok (map (network ar params) context).

(** [QFuncEstimatorForContinuousAction.predict]: the action is appended to the context.  Arrays of different
    lengths are a RuntimeError of [torch.cat].  Models: offline_continuous.py 1043-1054. *)
Definition q_cont_predict (dim : nat) (ar : arch) (params : list layer) (cols : nat) (context : list (list R)) (action : list R) : res (list R) :=
  check_dim dim cols ;;;
  raise_if (negb (Nat.eqb (length context) (length action))) RuntimeError ;;;
  Ok (flat_map (fun q => network ar params (fst q ++ [snd q])) (combine context action)).

(** ** Minibatches *)

(** Consecutive chunks of [b] elements, the last one possibly shorter: [DataLoader] with [drop_last=False].
    Models: offline.py 1015-1032. *)
Fixpoint chunks {A : Type} (fuel b : nat) (l : list A) : list (list A) :=
  match fuel, l with
  | S f, _ :: _ => firstn b l :: chunks f b (skipn b l)
  | _, _ => []
  end.
(** Models: offline.py 1015-1032, 1711-1728; offline_continuous.py 360-377, 895-912. *)
Definition loader {A : Type} (b : nat) (l : list A) : list (list A) := chunks (length l) b l.

(** [[l[i] for i in idx]] as a tensor.  Models: offline.py 1887-1894, 1912-1917. *)
Definition gather {A : Type} (d : A) (l : list A) (idx : list nat) : list A := map (fun i => nth i l d) idx.

(** The fields that govern training.  Models: offline.py 764-776. *)
Record train_cfg : Type := mkCfg {
  tc_batch : option Z; tc_early : bool; tc_valfrac : R; tc_shuffle : bool; tc_max_iter : nat; tc_tol : num; tc_no_change : Z
}.

Section Loop.
  Variable P : Type.
  (** Loss of a batch (of round numbers), which may raise; the parameters after one step on it. *)
  Variable loss : P -> list nat -> res num.
  Variable update : P -> list nat -> P.
  Variables (tol : num) (n_iter_no_change : Z).

  (** As [train_batches], with a loss that may raise.
      Models: offline.py 1139-1169, 1806-1821; offline_continuous.py 478-498, 990-1005. *)
  Fixpoint train_batches_r (batches : list (list nat)) (s : train_state P) : res (train_state P) :=
    match batches with
    | [] => Ok s
    | b :: r =>
        l <- loss (ts_params s) b ;;
        let params := update (ts_params s) b in
        let c := not_improving tol l (ts_counter s) (ts_previous s) in
        if Z.leb n_iter_no_change c
        then Ok (mkTrain params c (ts_previous s) (ts_vcounter s) (ts_vprevious s))
        else train_batches_r r (mkTrain params c (Some l) (ts_vcounter s) (ts_vprevious s))
    end.

  (** As [validate].  Models: offline.py 1173-1199, 1823-1838; offline_continuous.py 500-520, 1007-1020. *)
  Fixpoint validate_r (batches : list (list nat)) (s : train_state P) : res (train_state P) :=
    match batches with
    | [] => Ok s
    | b :: r =>
        l <- loss (ts_params s) b ;;
        let c := not_improving tol l (ts_vcounter s) (ts_vprevious s) in
        let s' prev := mkTrain (ts_params s) (ts_counter s) (ts_previous s) c prev in
        if Z.ltb n_iter_no_change c then Ok (s' (ts_vprevious s)) else validate_r r (s' (Some l))
    end.

  (** Models: offline.py 1133-1199, 1800-1838; offline_continuous.py 471-520, 984-1020. *)
  Definition fit_loop_r (early : bool) (epochs : list (list (list nat) * list (list nat))) (params : P) : res (train_state P) :=
    loopM (fun s e => s' <- train_batches_r (fst e) s ;; if early then validate_r (snd e) s' else Ok s')
      epochs (mkTrain params 0 None 0 None).
End Loop.
Arguments train_batches_r {P}.
Arguments validate_r {P}.
Arguments fit_loop_r {P}.

(** The rounds of the training and validation parts: [random_split] cuts the permutation [perm].
    Models: offline.py 1004-1014, 1700-1710; offline_continuous.py 349-359, 884-894. *)
Definition data_split (cfg : train_cfg) (n : nat) (perm : list nat) : res (list nat * list nat) :=
  tv <- split_sizes (tc_early cfg) n (tc_valfrac cfg) ;;
  Ok (if tc_early cfg
      then (firstn (Z.to_nat (fst tv)) perm, firstn (Z.to_nat (snd tv)) (skipn (Z.to_nat (fst tv)) perm))
      else (seq 0 n, [])).

(** The batches of every epoch; [sh k true] and [sh k false] are the shuffles of the training and validation parts in
    epoch k.  The sampler refuses to shuffle an empty training part, and a loader a batch size of zero (possible with
    'auto' and no rounds).
    Models: offline.py 990-1034, 1690-1730; offline_continuous.py 335-379, 871-914. *)
Definition epochs_of (cfg : train_cfg) (n : nat) (perm : list nat) (sh : nat -> bool -> list nat -> list nat)
    : res (list (list (list nat) * list (list nat))) :=
  b <- batch_size_ (tc_batch cfg) n ;;
  tv <- data_split cfg n perm ;;
  raise_if ((tc_shuffle cfg && Nat.eqb (length (fst tv)) 0) || Z.leb b 0) ValueError ;;;
  let ord k v l := if tc_shuffle cfg then sh k v l else l in
  Ok (map (fun k => (loader (Z.to_nat b) (ord k true (fst tv)), loader (Z.to_nat b) (ord k false (snd tv)))) (seq 0 (tc_max_iter cfg))).

(** ** Reward models *)

(** [mse_loss(r, q)].  Models: offline.py 1809, 1829; offline_continuous.py 993, 1011. *)
Definition mse (r q : arr1) : res num := d <- bcast2 nsub r q ;; Ok (nmean (map nsqr d)).

(** Loss of a batch of [QFuncEstimator]; [out] is the network.  Models: offline.py 1806-1809, 1825-1829. *)
Definition q_loss {P : Type} (out : P -> arr1 -> arr1) (context : arr2) (action : list Z) (reward : arr1) (p : P) (idx : list nat) : res num :=
  q <- pick (map (out p) (gather [] context idx)) (gather 0%Z action idx) ;;
  mse (gather NaN reward idx) q.

(** [QFuncEstimator.fit].  Models: offline.py 1752-1838. *)
Definition q_fit {P : Type} (out : P -> arr1 -> arr1) (update : P -> list nat -> P) (dim : nat) (opt : res unit) (cfg : train_cfg)
    (perm : list nat) (sh : nat -> bool -> list nat -> list nat) (cols : nat) (context : arr2) (action : list Z) (reward : arr1)
    (p0 : P) : res (train_state P) :=
  check_bandit_feedback_inputs context action reward None None None None ;;;
  check_dim dim cols ;;;
  opt ;;;
  epochs <- epochs_of cfg (length context) perm sh ;;
  fit_loop_r (q_loss out context action reward) update (tc_tol cfg) (tc_no_change cfg) (tc_early cfg) epochs p0.

(** Loss of a batch of [QFuncEstimatorForContinuousAction].  Models: offline_continuous.py 878-882, 990-993, 1009-1011. *)
Definition q_cont_loss {P : Type} (out : P -> arr1 -> num) (context : arr2) (action reward : arr1) (p : P) (idx : list nat) : res num :=
  mse (gather NaN reward idx) (map (fun i => out p (nth i context [] ++ [nth i action NaN])) idx).

(** [QFuncEstimatorForContinuousAction.fit]: [np.c_] needs one action per context, the data set asserts one reward
    per row.  Models: offline_continuous.py 936-1020. *)
Definition q_cont_fit {P : Type} (out : P -> arr1 -> num) (update : P -> list nat -> P) (dim : nat) (opt : res unit) (cfg : train_cfg)
    (perm : list nat) (sh : nat -> bool -> list nat -> list nat) (cols : nat) (context : arr2) (action reward : arr1)
    (p0 : P) : res (train_state P) :=
  check_continuous_bandit_feedback_inputs (length context) action reward None None ;;;
  check_dim dim cols ;;;
  opt ;;;
  batch_size_ (tc_batch cfg) (length context) ;;;
  raise_if (negb (Nat.eqb (length context) (length action))) ValueError ;;;
  raise_if (negb (Nat.eqb (length context) (length reward))) AssertionErr ;;;
  epochs <- epochs_of cfg (length context) perm sh ;;
  fit_loop_r (q_cont_loss out context action reward) update (tc_tol cfg) (tc_no_change cfg) (tc_early cfg) epochs p0.

(** ** Policies *)

(** Loss of a batch of [NNPolicyLearner]; [q_hat] is the fitted reward model, used by 'dm' and 'dr'.
    Models: offline.py 1139-1157, 1173-1190. *)
Definition policy_loss {P : Type} (out : P -> arr1 -> arr1) (q_hat : arr1 -> arr1) (o : objective) (lambda policy_reg var_reg : num)
    (context : arr2) (action : list Z) (reward pscore : arr1) (p : P) (idx : list nat) : res num :=
  let x := gather [] context idx in
  let pi := map (out p) x in
  nn_loss o lambda policy_reg var_reg (map q_hat x) pi pi (gather 0%Z action idx) (gather NaN reward idx) (gather NaN pscore idx).

(** [NNPolicyLearner.fit].  [q_fitted] is the outcome of fitting the reward model.  Without [position] and with
    [len_list > 1], [torch.from_numpy(None)] is a TypeError.  Models: offline.py 1077-1199. *)
Definition policy_fit {P : Type} (out : P -> arr1 -> arr1) (update : P -> list nat -> P) (dim K : nat) (len_list : Z)
    (o : objective) (lambda policy_reg var_reg : num) (q_fitted : res (arr1 -> arr1)) (opt : res unit) (cfg : train_cfg)
    (perm : list nat) (sh : nat -> bool -> list nat -> list nat) (cols : nat) (context : arr2) (action : list Z) (reward : arr1)
    (pscore : option arr1) (position : option (list Z)) (p0 : P) : res (train_state P) :=
  check_bandit_feedback_inputs context action reward None position pscore None ;;;
  check_dim dim cols ;;;
  let pscore' := match pscore with Some p => p | None => map (fun _ => ndiv (Fin 1) (Fin (INR K))) action end in
  q_hat <- match o with Dm | Dr => q_fitted | _ => Ok (fun _ => []) end ;;
  opt ;;;
  batch_size_ (tc_batch cfg) (length context) ;;;
  raise_if (negb (Z.eqb len_list 1) && match position with None => true | _ => false end) TypeError ;;;
  epochs <- epochs_of cfg (length context) perm sh ;;
  fit_loop_r (policy_loss out q_hat o lambda policy_reg var_reg context action reward pscore') update
    (tc_tol cfg) (tc_no_change cfg) (tc_early cfg) epochs p0.
