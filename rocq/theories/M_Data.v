(** * M_Data: model of obp/dataset/synthetic.py, synthetic_multi.py, multiclass.py, synthetic_embed.py,
    synthetic_continuous.py and real.py.

    Arrays the generators build are finite real matrices (rows as lists); the values that can become infinite or NaN
    (standardisation of the reward functions) use [num].  Random numbers are arguments: [RandomState(seed)] objects
    created inside a call are functions of the seed, draws of the object's own generator are plain arguments.
    scipy's truncated normal (mean, samples), PolynomialFeatures, classifiers, train_test_split and the CSV files are
    arguments.  Data types (integer/float arrays) are not modelled. *)

From Coq Require Import String Reals List ZArith Bool.
From Verif Require Import Num NpList M_Utils.
Import ListNotations.
Open Scope R_scope.

(** Models: arrays of dataset/synthetic.py 230-390. *)
Definition mat := list (list R).

(** ** Behaviour policies (synthetic.py 349-363, synthetic_multi.py 285-299, synthetic_embed.py 294-308) *)

(** [row[idx] = vals] *)
(** Models: dataset/synthetic.py 354-362. *)
Definition scatter (row : list R) (idx : list nat) (vals : list R) : list R :=
  fold_left (fun r iv => set_nth r (fst iv) (snd iv)) (combine idx vals) row.

(** synthetic.py 352-354: [np.argsort(g, axis=1)[:, ::-1][:, :m]] for one row. *)
Definition top (argsort : list R -> list nat) (g : list R) (m : nat) : list nat := firstn m (rev (argsort g)).

(** synthetic.py 349-361 for one row. *)
Definition deficient_row (argsort : list R -> list nat) (beta : R) (g logits : list R) (n_supported : nat) : list R :=
  let idx := top argsort g n_supported in
  scatter (map (fun _ => 0) logits) idx (softmax_row (map (fun a => beta * nth a logits 0) idx)).

(** synthetic.py 349-363; one [beta] per round (they differ in synthetic_multi.py only). *)
Definition behaviour (argsort : list R -> list nat) (n_actions n_deficient : nat) (betas : list R) (gumbel logits : mat) : mat :=
  if Nat.ltb 0 n_deficient
  then map (fun bgl => deficient_row argsort (fst bgl) (fst (snd bgl)) (snd (snd bgl)) (n_actions - n_deficient)%nat)
           (combine betas (combine gumbel logits))
  else map (fun bl => softmax_row (map (fun v => fst bl * v) (snd bl))) (combine betas logits).

(** [m[np.arange(n), a]] *)
(** Models: dataset/synthetic.py 262, 380; dataset/multiclass.py 278, 288. *)
Definition pick_cols (m : mat) (a : list nat) : list R := map (fun ra => nth (snd ra) (fst ra) 0) (combine m a).

(** ** SyntheticBanditDataset *)

(** Scipy's truncated normal: mean and samples as functions of a, b, loc and scale; samples are drawn by a generator
    created from the seed, one per round. *)
(** Models: dataset/synthetic.py 269-275, 335-341. *)
Record truncnorm := mkTn { tn_mean : R -> R -> R -> R -> R; tn_rvs : nat -> R -> R -> R -> R -> nat -> R }.

(** The dataset object; [ds_uniform seed i] is the i-th uniform draw of a fresh generator with that seed. *)
(** Models: dataset/synthetic.py 185-230 (fields and __post_init__). *)
Record synth := mkSynth {
  ds_K : nat; ds_dim : nat; ds_binary : bool;
  ds_fun : option (mat -> mat);              (* reward_function at action_context and random_state *)
  ds_free : list R;                          (* expected_reward when there is no reward function *)
  ds_std : R; ds_beta : R; ds_deficient : nat;
  ds_beh : option (mat -> mat);              (* behavior_policy_function *)
  ds_seed : nat; ds_max : R
}.

(** synthetic.py 189-231: [__post_init__] (types apart); [rt] is the reward type and [ac_rows] the number of rows of
    [action_context] when it is given.  [reward_max] is 1e10. *)
Definition synth_init (n_actions dim : Z) (rt : string) (f : option (mat -> mat)) (free : list R) (std : R)
    (ac_rows : option nat) (beta : R) (n_deficient : Z) (beh : option (mat -> mat)) (seed : option nat) : res synth :=
  check_scalar_Z n_actions (Some 2%Z) None ;;;
  check_scalar_Z dim (Some 1%Z) None ;;;
  check_scalar_Z n_deficient (Some 0%Z) (Some (n_actions - 1)%Z) ;;;
  match seed with
  | None => Err ValueError
  | Some sd =>
      raise_if (negb (String.eqb rt "binary" || String.eqb rt "continuous")) ValueError ;;;
      check_scalar (Fin std) (Some (Fin 0)) None ;;;
      (match ac_rows with
       | Some r => raise_if (negb (Z.eqb (Z.of_nat r) n_actions)) ValueError
       | None => Ok tt
       end) ;;;
      Ok (mkSynth (Z.to_nat n_actions) (Z.to_nat dim) (String.eqb rt "binary") f free std beta (Z.to_nat n_deficient) beh sd
                  (10 ^ 10))
  end.

(** synthetic.py 242-254: [calc_expected_reward]. *)
Definition calc_expected_reward (d : synth) (context : mat) : mat :=
  match ds_fun d with
  | None => repeat (ds_free d) (length context)
  | Some f => f context
  end.

(** synthetic.py 256-279: [sample_reward_given_expected_reward]; [binom i p] is the i-th Bernoulli draw. *)
Definition sample_given (tn : truncnorm) (binom : nat -> R -> bool) (d : synth) (expected : mat) (action : list nat) : res (list R) :=
  let factual := pick_cols expected action in
  if ds_binary d
  then raise_if (existsb (fun p => Rltb p 0 || Rltb 1 p)%bool factual) ValueError ;;;
       Ok (map (fun ip => if binom (fst ip) (snd ip) then 1 else 0) (combine (seq 0 (length factual)) factual))
  else Ok (map (fun im => let mean := snd im in
                          tn_rvs tn (ds_seed d) ((0 - mean) / ds_std d) ((ds_max d - mean) / ds_std d) mean (ds_std d) (fst im))
               (combine (seq 0 (length factual)) factual)).

(** synthetic.py 281-309: [sample_reward]. *)
Definition sample_reward (tn : truncnorm) (binom : nat -> R -> bool) (d : synth) (context : mat) (action : list nat) : res (list R) :=
  raise_if (negb (Nat.eqb (length context) (length action))) ValueError ;;;
  sample_given tn binom d (calc_expected_reward d context) action.

Record batch := mkBatch {
  b_n : nat; b_actions : nat; b_context : mat; b_action : list nat; b_reward : list R; b_expected : mat;
  b_pi : list (list (list R)); b_pscore : list R }.

(** synthetic.py 329-337: expected rewards, corrected for truncation. *)
Definition corrected (tn : truncnorm) (d : synth) (context : mat) : mat :=
  let e := calc_expected_reward d context in
  if ds_binary d then e
  else map (map (fun mean => tn_mean tn ((0 - mean) / ds_std d) ((ds_max d - mean) / ds_std d) mean (ds_std d))) e.

(** synthetic.py 311-381: [obtain_batch_bandit_feedback]. *)
Definition synth_batch (tn : truncnorm) (uniform : nat -> nat -> R) (argsort : list R -> list nat) (d : synth) (n_rounds : Z)
    (context gumbel : mat) (binom : nat -> R -> bool) : res batch :=
  check_scalar_Z n_rounds (Some 1%Z) None ;;;
  let n := Z.to_nat n_rounds in
  let expected := corrected tn d context in
  let logits := match ds_beh d with None => expected | Some f => f context end in
  let pi_b := behaviour argsort (ds_K d) (ds_deficient d) (repeat (ds_beta d) n) gumbel logits in
  let actions := sample_action_fast pi_b (map (uniform (ds_seed d)) (seq 0 n)) in
  rewards <- sample_given tn binom d expected actions ;;
  Ok (mkBatch n (ds_K d) context actions rewards expected (map (map (fun v => [v])) pi_b) (pick_cols pi_b actions)).

(** synthetic.py 383-414: [calc_ground_truth_policy_value]. *)
Definition ground_truth (expected : arr2) (action_dist : arr3) : res num :=
  raise_if (negb (Nat.eqb (length expected) (length action_dist))) ValueError ;;;
  raise_if (negb (Nat.eqb (length (nth 0 expected [])) (dim1 action_dist))) ValueError ;;;
  w <- mapM (mapM (fun c => np_get c 0%Z)) action_dist ;;
  v <- np_average_axis1 expected w ;;
  Ok (nmean v).

(** ** Reward functions *)

(** Models: dataset/synthetic.py 800-821 (matrix products). *)
Definition rdot (x y : list R) : R := Rsum (map (fun xy => fst xy * snd xy) (combine x y)).
(** [x @ M] for a vector and a matrix with [d] columns. *)
(** Models: dataset/synthetic.py 800-821. *)
Definition vecmat (x : list R) (M : mat) (d : nat) : list R := map (fun j => rdot x (map (fun r => nth j r 0) M)) (seq 0 d).

(** Coefficients: the same for all rounds, or (from the drifter) one per round. *)
(** Models: dataset/synthetic.py 793-821. *)
Inductive coef1 := One (c : list R) | PerRound (c : mat).
(** Models: dataset/synthetic.py 793-821. *)
Inductive coef2 := One2 (c : mat) | PerRound2 (c : list mat).
(** Models: dataset/synthetic.py 793-821. *)
Definition rows1 (c : coef1) : nat := match c with One l => length l | PerRound m => length m end.

(** synthetic.py 799-804: the context part of round i's values.  A matrix with another number of rows than rounds is
    not modelled (ValueError). *)
Definition context_values (ctx : mat) (c : coef1) : res (list R) :=
  match c with
  | One l => Ok (map (fun x => rdot x l) ctx)
  | PerRound m => if Nat.eqb (length m) (length ctx) then Ok (map (fun xc => rdot (fst xc) (snd xc)) (combine ctx m)) else Err ValueError
  end.
(** synthetic.py 806-808 *)
Definition action_values (n : nat) (acs : mat) (c : coef1) : res mat :=
  match c with
  | One l => Ok (repeat (map (fun a => rdot l a) acs) n)
  | PerRound m => if Nat.eqb (length m) n then Ok (map (fun l => map (fun a => rdot l a) acs) m) else Err ValueError
  end.
(** synthetic.py 810-822: with as many action coefficients as rounds the interactions are computed round by round
    ([np.matmul] broadcasts one coefficient matrix over the rounds).  Shared action coefficients together with per-round
    interactions, which no coefficient function of the library returns, give a 3-D array; the model says ValueError. *)
Definition interaction_values (ctx acs : mat) (d : nat) (ac : coef1) (c : coef2) : res mat :=
  if negb (Nat.eqb (rows1 ac) (length ctx))
  then match c with
       | One2 M => Ok (map (fun x => map (fun a => rdot (vecmat x M d) a) acs) ctx)
       | PerRound2 _ => Err ValueError
       end
  else match c with
       | One2 M => Ok (map (fun x => map (fun a => rdot (vecmat x M d) a) acs) ctx)
       | PerRound2 Ms =>
           if Nat.eqb (length Ms) (length ctx)
           then Ok (map (fun xM => map (fun a => rdot (vecmat (fst xM) (snd xM) d) a) acs) (combine ctx Ms))
           else Err ValueError
       end.

Definition all_values (m : mat) : list R := concat m.
Definition rmean (l : list R) : R := Rsum l / INR (length l).
Definition rstd (l : list R) : R := sqrt (rmean (map (fun v => (v - rmean l) ^ 2) l)).

(** synthetic.py 824-832: standardisation (or what the code does for it) and scaling. *)
Definition finish_reward (z_score : bool) (degree : nat) (v : mat) : arr2 :=
  let shift := if z_score then ndiv (Fin (rmean (all_values v))) (Fin (rstd (all_values v))) else Fin 0 in
  map (map (fun x => nmul (nnat degree) (nsub (Fin x) shift))) v.

(** synthetic.py 685-832: [_base_reward_function]; [poly degree] is PolynomialFeatures, [choose] the random choice of
    columns, [coefs] the coefficient function. *)
Definition base_reward (poly : nat -> mat -> mat) (choose : nat -> nat -> nat -> list nat)
    (coefs : nat -> nat -> nat -> coef1 * coef1 * coef2) (context action_context : mat) (degree : Z) (ratio : R) (z_score : bool) : res arr2 :=
  check_scalar_Z degree (Some 1%Z) None ;;;
  check_scalar (Fin ratio) (Some (Fin 0)) (Some (Fin 1)) ;;;
  let dg := Z.to_nat degree in
  let ctx := poly dg context in
  let acs := poly dg action_context in
  let n := length ctx in
  let dc := length (nth 0 ctx []) in
  let da := length (nth 0 acs []) in
  let ec := if Rltb ratio 1 then Nat.max (Z.to_nat (Int_part (INR dc * ratio))) 1 else dc in
  let ea := if Rltb ratio 1 then Nat.max (Z.to_nat (Int_part (INR da * ratio))) 1 else da in
  let ctx := if Rltb ratio 1 then map (fun r => map (fun j => nth j r 0) (choose 0%nat dc ec)) ctx else ctx in
  let acs := if Rltb ratio 1 then map (fun r => map (fun j => nth j r 0) (choose 1%nat da ea)) acs else acs in
  let '(cc, ac, cac) := coefs n ea ec in
  cv <- context_values ctx cc ;;
  av <- action_values n acs ac ;;
  iv <- interaction_values ctx acs ea ac cac ;;
  Ok (finish_reward z_score dg
        (map (fun q => map (fun ai => fst q + fst ai + snd ai) (combine (fst (snd q)) (snd (snd q)))) (combine cv (combine av iv)))).

(** synthetic.py 451-507 etc.: the logistic functions apply [sigmoid] to finite logits. *)
Definition logistic_of (logits : arr2) : list (list (option R)) :=
  map (map (fun v => match v with Fin x => Some (sigmoid x) | _ => None end)) logits.

(** synthetic.py 906-976: [_base_behavior_policy_function]; [v] are the raw logits
    [context_ @ context_action_coef @ action_context_.T + action_coef @ action_context_.T]. *)
Definition behaviour_raw (ctx acs : mat) (ac : list R) (cac : mat) : mat :=
  map (fun x => map (fun a => rdot (vecmat x cac (length ac)) a + rdot ac a) acs) ctx.
Definition behaviour_logits (degree : nat) (v : mat) : arr2 :=
  let m := rmean (all_values v) in
  let s := rstd (all_values v) in
  map (map (fun x => ndiv (nmul (nnat degree) (nsub (Fin x) (Fin m))) (Fin s))) v.

(** ** SyntheticMultiLoggersBanditDataset *)

(** [np.round]: to the nearest integer, ties to even. *)
(** Models: dataset/synthetic_multi.py 262-263. *)
Definition round_half_even (x : R) : Z :=
  let f := Int_part x in
  let d := x - IZR f in
  if Rltb d (1 / 2) then f
  else if Rltb (1 / 2) d then (f + 1)%Z
  else if Z.even f then f else (f + 1)%Z.

(** synthetic_multi.py 188-202: normalisation of [rhos]; all zero gives NaN, for which [int(np.round(...))] raises
    ValueError when a batch is drawn (here it is raised at once). *)
Definition multi_rhos (betas rhos : list R) : res (list R) :=
  raise_if (existsb (fun r => Rltb r 0) rhos) ValueError ;;;
  raise_if (negb (Nat.eqb (length betas) (length rhos))) ValueError ;;;
  raise_if (negb (Nat.eqb (length rhos) 0) && Reqb (Rsum rhos) 0)%bool ValueError ;;;
  Ok (map (fun r => r / Rsum rhos) rhos).

(** synthetic_multi.py 262-263 *)
Definition zsum (l : list Z) : Z := fold_right Z.add 0%Z l.
Definition strata_sizes (n : nat) (rhos : list R) : list Z :=
  let s := map (fun rho => round_half_even (INR n * rho)) rhos in
  match rev s with
  | [] => []
  | x :: r => rev r ++ [(x + (Z.of_nat n - zsum s))%Z]
  end.
(** synthetic_multi.py 264-269: [np.ones(n_k)] raises for a negative size. *)
Definition fill {A} (sizes : list Z) (vals : list A) : res (list A) :=
  raise_if (existsb (fun z => Z.ltb z 0) sizes) ValueError ;;;
  Ok (concat (map (fun zv => repeat (snd zv) (Z.to_nat (fst zv))) (combine sizes vals))).

Record mbatch := mkMB { mb_batch : batch; mb_stratum : list nat; mb_pi_avg : mat; mb_pscore_avg : list R }.

(** synthetic_multi.py 303-305 *)
Definition average_policy (betas rhos : list R) (logits : mat) : mat :=
  fold_left (fun acc br => map (fun rr => map (fun xy => fst xy + snd xy) (combine (fst rr) (snd rr)))
                             (combine acc (map (fun row => map (fun v => snd br * v) (softmax_row (map (fun v => fst br * v) row))) logits)))
            (combine betas rhos) (map (map (fun _ => 0)) logits).

(** synthetic_multi.py 245-325: [obtain_batch_bandit_feedback], [rhos] being the normalised ones; with deficient actions [self.beta] is used instead of
    the stratum's beta. *)
Definition multi_batch (tn : truncnorm) (uniform : nat -> nat -> R) (argsort : list R -> list nat) (d : synth) (betas rhos : list R)
    (n_rounds : Z) (context gumbel : mat) (binom : nat -> R -> bool) : res mbatch :=
  check_scalar_Z n_rounds (Some 1%Z) None ;;;
  let n := Z.to_nat n_rounds in
  raise_if (Nat.eqb (length rhos) 0) IndexError ;;;
  let sizes := strata_sizes n rhos in
  stratum <- fill sizes (seq 0 (length sizes)) ;;
  beta_ <- fill sizes betas ;;
  let expected := corrected tn d context in
  let pi_b := behaviour argsort (ds_K d) (ds_deficient d) (if Nat.ltb 0 (ds_deficient d) then repeat (ds_beta d) n else beta_) gumbel expected in
  let actions := sample_action_fast pi_b (map (uniform (ds_seed d)) (seq 0 n)) in
  let pi_avg := average_policy betas rhos expected in
  rewards <- sample_given tn binom d expected actions ;;
  Ok (mkMB (mkBatch n (ds_K d) context actions rewards expected (map (map (fun v => [v])) pi_b) (pick_cols pi_b actions))
           stratum pi_avg (pick_cols pi_avg actions)).

(** ** MultiClassToBanditReduction *)

(** Models: dataset/multiclass.py 139-188 (fields and __post_init__). *)
Record multiclass := mkMC { mc_y : list nat; mc_full : mat; mc_alpha : R; mc_K : nat; mc_deficient : nat }.

(** [rankdata(y, "dense") - 1]: the number of distinct smaller values. *)
(** Models: dataset/multiclass.py 183; dataset/real.py 182-184. *)
Definition distinct (l : list Z) : list Z := nodup Z.eq_dec l.
(** Models: dataset/multiclass.py 183; dataset/real.py 182-184. *)
Definition dense_rank (y : list Z) : list nat := map (fun v => length (filter (fun w => Z.ltb w v) (distinct y))) y.

(** multiclass.py 167-186: [__post_init__]; the labels index [y_full] before they are re-indexed. *)
Definition mc_init (y : list Z) (alpha_b : R) (n_deficient : Z) : res multiclass :=
  check_scalar (Fin alpha_b) (Some (Fin 0)) None ;;;
  let K := length (distinct y) in
  check_scalar_Z n_deficient (Some 0%Z) (Some (Z.of_nat K - 1)%Z) ;;;
  raise_if (Rleb 1 alpha_b) ValueError ;;;
  full <- mapM (fun v => j <- np_index K v ;; Ok (set_nth (repeat 0 K) j 1)) y ;;
  Ok (mkMC (dense_rank y) full alpha_b K (Z.to_nat n_deficient)).

(** multiclass.py 203-230: [split_train_eval]; [ev] are the rounds train_test_split puts in the evaluation part. *)
Definition mc_eval_y (d : multiclass) (ev : list nat) : list nat := map (fun i => nth i (mc_y d) 0%nat) ev.
Definition mc_eval_full (d : multiclass) (ev : list nat) : mat := map (fun i => nth i (mc_full d) []) ev.

(** multiclass.py 259-263 and 325-329 for one round with prediction [pred]. *)
Definition mixed_row (K : nat) (alpha : R) (pred : nat) : list R :=
  set_nth (repeat ((1 - alpha) / INR K) K) pred (alpha + (1 - alpha) / INR K).
(** multiclass.py 264-275 for one round. *)
Definition mc_deficient_row (argsort : list R -> list nat) (g row : list R) (m : nat) : list R :=
  let r := scatter row (top argsort g m) (repeat 0 m) in
  map (fun v => v / Rsum r) r.

(** multiclass.py 232-289: [obtain_batch_bandit_feedback]; [preds] are the classifier's predictions. *)
Definition mc_batch (uniform : nat -> nat -> R) (argsort : list R -> list nat) (d : multiclass) (ev : list nat) (preds : list nat)
    (gumbel : mat) (seed : nat) : list nat * list R * mat * list R :=
  let rows := map (mixed_row (mc_K d) (mc_alpha d)) preds in
  let pi_b := if Nat.ltb 0 (mc_deficient d)
              then map (fun gr => mc_deficient_row argsort (fst gr) (snd gr) (mc_deficient d)) (combine gumbel rows) else rows in
  let actions := sample_action_fast pi_b (map (uniform seed) (seq 0 (length ev))) in
  (actions, pick_cols (mc_eval_full d ev) actions, pi_b, pick_cols pi_b actions).

(** multiclass.py 291-330: [obtain_action_dist_by_eval_policy]. *)
Definition mc_eval_policy (d : multiclass) (preds : list nat) (alpha_e : R) : res (list (list (list R))) :=
  check_scalar (Fin alpha_e) (Some (Fin 0)) (Some (Fin 1)) ;;;
  Ok (map (fun p => map (fun v => [v]) (mixed_row (mc_K d) alpha_e p)) preds).

(** multiclass.py 332-353: [calc_ground_truth_policy_value]. *)
Definition mc_ground_truth (d : multiclass) (ev : list nat) (action_dist : arr3) : res num :=
  raise_if (negb (Nat.eqb (length action_dist) (length ev))) ValueError ;;;
  rows <- mapM (fun ay => np_get (fst ay) (Z.of_nat (snd ay))) (combine action_dist (mc_eval_y d ev)) ;;
  Ok (nmean (concat rows)).

(** ** SyntheticBanditDatasetWithActionEmbeds *)

(** synthetic_embed.py 266-283: [q_x_e] as a function of round, category and dimension; [p_e_a] of action, category and
    dimension; the importance of dimensions below [irrelevant] is zero, that of the others a Dirichlet draw. *)
Definition cat_importance (n_irrelevant : nat) (dirichlet : nat -> R) (d : nat) : R :=
  if Nat.ltb d n_irrelevant then 0 else dirichlet (d - n_irrelevant)%nat.
Definition rsum_upto (n : nat) (f : nat -> R) : R := Rsum (map f (seq 0 n)).
Definition embed_expected (n_cat n_dim : nat) (importance : nat -> R) (q_x_e p_e_a : nat -> nat -> nat -> R) (i a : nat) : R :=
  rsum_upto n_dim (fun d => rsum_upto n_cat (fun c => q_x_e i c d * p_e_a a c d) * importance d).
(** synthetic_embed.py 320-325: the mean used to sample the reward of round [i]. *)
Definition embed_factual (n_dim : nat) (importance : nat -> R) (q_x_e : nat -> nat -> nat -> R) (embed : nat -> nat) (i : nat) : R :=
  fold_left (fun acc d => acc + importance d * q_x_e i (embed d) d) (seq 0 n_dim) 0.
(** synthetic_embed.py 312-317: the embeddings; dimension [d] uses the generator with seed [d]. *)
Definition embed_draw (uniform : nat -> nat -> R) (n_cat : nat) (p_e_a : nat -> nat -> nat -> R) (actions : list nat) (d : nat) : list nat :=
  sample_action_fast (map (fun a => map (fun c => p_e_a a c d) (seq 0 n_cat)) actions) (map (uniform d) (seq 0 (length actions))).
(** synthetic_embed.py 337-350: the first [hidden] dimensions are not returned. *)
Definition observed (hidden : nat) {A} (row : list A) : list A := skipn hidden row.

(** [a[:, hidden:]] of the embedding distributions. *)
(** Models: dataset/synthetic_embed.py 347-350. *)
Definition observed_pea (n_actions n_cat n_dim hidden : nat) (p_e_a : nat -> nat -> nat -> R) : list mat :=
  map (fun a => map (fun c => observed hidden (map (fun d => p_e_a a c d) (seq 0 n_dim))) (seq 0 n_cat)) (seq 0 n_actions).

(** synthetic_embed.py 218-222: all three numbers of dimensions are increased by one. *)
Record embed_conf := mkEc { ec_cat : nat; ec_dim : nat; ec_hidden : nat; ec_irrelevant : nat }.
(** synthetic_embed.py 191-222 (types and the base class apart). *)
Definition embed_init (n_cat latent n_dim n_hidden n_irrelevant : Z) (std : num) : res embed_conf :=
  check_scalar_Z n_cat (Some 1%Z) None ;;;
  check_scalar_Z latent (Some 1%Z) None ;;;
  check_scalar_Z n_dim (Some 1%Z) None ;;;
  check_scalar std (Some (Fin 0)) None ;;;
  check_scalar_Z n_hidden (Some 0%Z) (Some n_dim) ;;;
  check_scalar_Z n_irrelevant (Some 0%Z) (Some n_dim) ;;;
  Ok (mkEc (Z.to_nat n_cat) (Z.to_nat (n_dim + 1)) (Z.to_nat (n_hidden + 1)) (Z.to_nat (n_irrelevant + 1))).

Record ebatch := mkEB { eb_batch : batch; eb_embed : list (list nat); eb_pea : list mat }.

(** synthetic_embed.py 250-350: [obtain_batch_bandit_feedback]; [dirichlet] are the importances drawn for the relevant
    dimensions, [q_x_e] the reward function at the latent parameters of the categories, [normal i] the i-th standard
    normal draw. *)
Definition embed_batch (uniform : nat -> nat -> R) (argsort : list R -> list nat) (d : synth) (c : embed_conf) (dirichlet : nat -> R)
    (q_x_e p_e_a : nat -> nat -> nat -> R) (n_rounds : Z) (context gumbel : mat) (binom : nat -> R -> bool) (normal : nat -> R) : res ebatch :=
  check_scalar_Z n_rounds (Some 1%Z) None ;;;
  let n := Z.to_nat n_rounds in
  let importance := cat_importance (ec_irrelevant c) dirichlet in
  let expected := map (fun i => map (fun a => embed_expected (ec_cat c) (ec_dim c) importance q_x_e p_e_a i a) (seq 0 (ds_K d))) (seq 0 n) in
  let logits := match ds_beh d with None => expected | Some f => f context end in
  let pi_b := behaviour argsort (ds_K d) (ds_deficient d) (repeat (ds_beta d) n) gumbel logits in
  let actions := sample_action_fast pi_b (map (uniform (ds_seed d)) (seq 0 n)) in
  let embeds := map (embed_draw uniform (ec_cat c) p_e_a actions) (seq 0 (ec_dim c)) in
  let row i := map (fun col => nth i col 0%nat) embeds in
  let factual := map (fun i => embed_factual (ec_dim c) importance q_x_e (fun k => nth k (row i) 0%nat) i) (seq 0 n) in
  rewards <- (if ds_binary d
              then raise_if (existsb (fun p => Rltb p 0 || Rltb 1 p)%bool factual) ValueError ;;;
                   Ok (map (fun ip => if binom (fst ip) (snd ip) then 1 else 0) (combine (seq 0 n) factual))
              else Ok (map (fun ip => snd ip + ds_std d * normal (fst ip)) (combine (seq 0 n) factual))) ;;
  Ok (mkEB (mkBatch n (ds_K d) context actions rewards expected (map (map (fun v => [v])) pi_b) (pick_cols pi_b actions))
           (map (fun i => observed (ec_hidden c) (row i)) (seq 0 n)) (observed_pea (ds_K d) (ec_cat c) (ec_dim c) (ec_hidden c) p_e_a)).

(** ** SyntheticContinuousBanditDataset *)

(** synthetic_continuous.py 125-146: [__post_init__]. *)
Definition cont_ds_init (dim : Z) (action_noise reward_noise lo hi : num) (seed : option nat) : res unit :=
  check_scalar_Z dim (Some 1%Z) None ;;;
  check_scalar action_noise (Some (Fin 0)) None ;;;
  check_scalar reward_noise (Some (Fin 0)) None ;;;
  raise_if (nle hi lo) ValueError ;;;
  match seed with None => Err ValueError | Some _ => Ok tt end.

(** synthetic_continuous.py 194-204: uniform logging; scipy's [uniform.rvs] is loc + u * scale and [uniform.pdf] is
    1 / scale on [loc, loc + scale]. *)
Definition uniform_action (lo hi : num) (u : R) : num := nadd lo (nmul (nsub hi lo) (Fin u)).
Definition uniform_pdf (lo hi x : num) : num :=
  let z := ndiv (nsub x lo) (nsub hi lo) in
  if (nle (Fin 0) z && nle z (Fin 1))%bool then ndiv (Fin 1) (nsub hi lo)
  else match z with NaN => NaN | _ => Fin 0 end.
(** [x ** y] for x >= 0 and y >= 0. *)
(** Models: dataset/synthetic_continuous.py 153, 304. *)
Definition rpow (x y : R) : R := if Reqb x 0 then (if Reqb y 0 then 1 else 0) else Rpower x y.
(** synthetic_continuous.py 148-153 *)
Definition contextfree_reward (a : num) : num :=
  match a with
  | Fin a => Fin (2 * rpow (Rabs a) (3 / 2) - 5 * a)
  | NInf => PInf
  | _ => NaN
  end.

Record cont_batch := mkCB { cb_n : nat; cb_context : mat; cb_action : list num; cb_reward : list num; cb_pscore : list num; cb_expected : list num }.

(** synthetic_continuous.py 155-224: [obtain_batch_bandit_feedback].  [draw a b loc scale i] is the i-th truncated normal draw,
    [pdf x a b loc scale] its density; [noise i] the i-th reward noise; the policy and reward functions are those at the
    dataset's seed. *)
Definition cont_obtain (draw : num -> num -> R -> R -> nat -> R) (pdf : R -> num -> num -> R -> R -> R)
    (lo hi : num) (action_noise : R) (reward : option (mat -> list num -> list num)) (beh : option (mat -> list R))
    (n_rounds : Z) (context : mat) (u noise : nat -> R) : res cont_batch :=
  check_scalar_Z n_rounds (Some 1%Z) None ;;;
  let n := Z.to_nat n_rounds in
  let '(action, pscore) :=
    match beh with
    | Some f =>
        let mu := f context in
        let bound b m := ndiv (nsub b (Fin m)) (Fin action_noise) in
        let acts := map (fun im => draw (bound lo (snd im)) (bound hi (snd im)) (snd im) action_noise (fst im)) (combine (seq 0 n) mu) in
        (map Fin acts, map (fun am => Fin (pdf (fst am) (bound lo (snd am)) (bound hi (snd am)) (snd am) action_noise)) (combine acts mu))
    | None =>
        let acts := map (fun i => uniform_action lo hi (u i)) (seq 0 n) in
        (acts, map (uniform_pdf lo hi) acts)
    end in
  let expected := match reward with None => map contextfree_reward action | Some f => f context action end in
  Ok (mkCB n context action (map (fun ie => nadd (snd ie) (Fin (noise (fst ie)))) (combine (seq 0 n) expected)) pscore expected).

(** synthetic_continuous.py 226-264: [calc_ground_truth_policy_value]. *)
Definition cont_ground_truth (dim : nat) (reward : option (mat -> list num -> list num)) (context : mat) (action : list num) : res num :=
  raise_if (negb (Nat.eqb (length (nth 0 context [])) dim)) ValueError ;;;
  raise_if (negb (Nat.eqb (length context) (length action))) ValueError ;;;
  Ok (nmean (match reward with None => map contextfree_reward action | Some f => f context action end)).

(** synthetic_continuous.py 270-304: [linear_reward_funcion_continuous]; [normal k] is the k-th normal number of the generator
    at the given seed, [unif k] the k-th uniform number it gives after [d] normal ones. *)
Definition linear_reward_cont (normal unif : nat -> R) (x : list R) (a : R) : R :=
  rpow (Rabs (rdot x (map normal (seq 0 (length x))) - a)) (unif 0%nat) + unif 1%nat.
(** synthetic_continuous.py 307-347: [quadratic_reward_funcion_continuous] (3 d + 1 normal numbers). *)
Definition quadratic_reward_cont (normal : nat -> R) (x : list R) (a : R) : R :=
  let d := length x in
  let coef k := map normal (seq (k * d) d) in
  normal (3 * d)%nat * a * rdot x (coef 0%nat) + rdot x (coef 1%nat) * a + (a - rdot x (coef 2%nat)) ^ 2.
(** synthetic_continuous.py 350-375: [linear_behavior_policy_continuous]. *)
Definition linear_behavior_cont (normal unif : nat -> R) (x : list R) : R :=
  rdot x (map normal (seq 0 (length x))) + unif 0%nat.
(** synthetic_continuous.py 381-397, 400-416, 419-435: the evaluation policies. *)
Definition rsign (x : R) : R := if Rltb 0 x then 1 else if Rltb x 0 then -1 else 0.
Definition linear_policy_cont (x : list R) : R := rmean x.
Definition threshold_policy_cont (x : list R) : R := 1 + rsign (rmean x - 3 / 2).
Definition sign_policy_cont (x : list R) : R := sin (rmean x).

(** ** OpenBanditDataset *)

(** One row of the log, and the feedback (one list per key). *)
(** Models: dataset/real.py 174-208. *)
Record obd_row := mkRow { r_time : R; r_item : Z; r_pos : Z; r_click : R; r_ps : R; r_ctx : list R }.
(** Models: dataset/real.py 66-120. *)
Record obd := mkObd { od_action : list Z; od_position : list nat; od_reward : list R; od_pscore : list R; od_context : mat }.
(** Models: dataset/real.py 251-285. *)
Record obd_feedback := mkFb { fb_n : Z; fb_actions : Z; fb_data : obd }.

(** real.py 174-200: [load_raw_data] and [pre_process]; [raw] are the rows of the file with the encoded user features,
    [sort] is [sort_values("timestamp")]. *)
Definition obd_load (sort : list obd_row -> list obd_row) (raw : list obd_row) : obd :=
  let rows := sort raw in
  mkObd (map r_item rows) (dense_rank (map r_pos rows)) (map r_click rows) (map r_ps rows) (map r_ctx rows).
(** real.py 118-121 *)
Definition obd_len_list (d : obd) : res Z := m <- zmaxl (map Z.of_nat (od_position d)) ;; Ok (m + 1)%Z.
(** real.py 108-111 *)
Definition obd_actions (d : obd) : res Z := m <- zmaxl (od_action d) ;; Ok (m + 1)%Z.
Definition obd_map (f : forall A, list A -> list A) (d : obd) : obd :=
  mkObd (f _ (od_action d)) (f _ (od_position d)) (f _ (od_reward d)) (f _ (od_pscore d)) (f _ (od_context d)).

(** real.py 210-285: [obtain_batch_bandit_feedback]. *)
Definition obd_full (d : obd) : res obd_feedback :=
  K <- obd_actions d ;; Ok (mkFb (Z.of_nat (length (od_action d))) K d).
Definition obd_split (d : obd) (test_size : num) : res (obd_feedback * obd_feedback) :=
  check_scalar test_size (Some (Fin 0)) (Some (Fin 1)) ;;;
  match test_size with
  | Fin t =>
      let n := length (od_action d) in
      let tr := Z.to_nat (Int_part (INR n * (1 - t))) in
      K <- obd_actions d ;;
      Ok (mkFb (Z.of_nat tr) K (obd_map (fun A => @firstn A tr) d),
          mkFb (Z.of_nat n - Z.of_nat tr) K (obd_map (fun A => @skipn A tr) d))
  | _ => Err ValueError
  end.

(** real.py 287-355: [sample_bootstrap_bandit_feedback]; [draw j] is the j-th element of [bootstrap_idx]. *)
Definition obd_bootstrap (d : obd) (sample_size : option Z) (test_size : num) (split : bool) (draw : nat -> Z) : res obd_feedback :=
  fb <- (if split then tt2 <- obd_split d test_size ;; Ok (fst tt2) else obd_full d) ;;
  size <- (match sample_size with
           | None => Ok (fb_n fb)
           | Some z => check_scalar_Z z (Some 0%Z) (Some (fb_n fb)) ;;; Ok z
           end) ;;
  raise_if (Z.eqb (fb_n fb) 0 && negb (Z.eqb size 0))%bool ValueError ;;;
  let idx := map draw (seq 0 (Z.to_nat size)) in
  let take A (l : list A) := mapM (np_get l) idx in
  a <- take _ (od_action (fb_data fb)) ;;
  p <- take _ (od_position (fb_data fb)) ;;
  r <- take _ (od_reward (fb_data fb)) ;;
  s <- take _ (od_pscore (fb_data fb)) ;;
  x <- take _ (od_context (fb_data fb)) ;;
  Ok (mkFb size (fb_actions fb) (mkObd a p r s x)).

(** real.py 123-172: [calc_on_policy_policy_value_estimate]. *)
Definition obd_on_policy (d : obd) (test_size : num) (split : bool) : res num :=
  fb <- (if split then tt2 <- obd_split d test_size ;; Ok (snd tt2) else obd_full d) ;;
  Ok (nmean (map Fin (od_reward (fb_data fb)))).
