(** * M_SlateData: model of obp/dataset/synthetic_slate.py.

    Matrices are lists of rows of reals; floating point (including the float16 array of the reward function) is not modelled.
    Random numbers, the base reward function and the behaviour policy function (both at the dataset's seed) are arguments.
    [n_rounds >= 1] where an array must not be empty. *)

From Coq Require Import String Reals List ZArith Bool.
From Verif Require Import Num NpList M_Utils M_Data.
Import ListNotations.
Open Scope R_scope.

(** ** Construction *)

(** Models: dataset/synthetic_slate.py 234-240. *)
Inductive structure := CascadeAdditive | CascadeDecay | Independent | StandardAdditive | StandardDecay.
(** Models: dataset/synthetic_slate.py 234-240, 1393-1398. *)
Definition structure_of (s : string) : option structure :=
  if String.eqb s "cascade_additive" then Some CascadeAdditive else
  if String.eqb s "cascade_decay" then Some CascadeDecay else
  if String.eqb s "independent" then Some Independent else
  if String.eqb s "standard_additive" then Some StandardAdditive else
  if String.eqb s "standard_decay" then Some StandardDecay else None.
(** Models: dataset/synthetic_slate.py 271, 1404. *)
Definition is_additive (s : structure) : bool := match s with CascadeAdditive | StandardAdditive => true | _ => false end.
(** Models: dataset/synthetic_slate.py 1405. *)
Definition is_cascade (s : structure) : bool := match s with CascadeAdditive | CascadeDecay => true | _ => false end.

(** synthetic_slate.py 1525-1550: the decay functions. *)
Definition exponential_decay (d : nat) : R := exp (- INR d).
Definition inverse_decay (d : nat) : R := 1 / (INR d + 1).

(** synthetic_slate.py 1289-1310: [generate_symmetric_matrix]; [normal i j] are the normal draws. *)
Definition tril (n : nat) (f : nat -> nat -> R) (i j : nat) : R := if Nat.leb j i then f i j else 0.
Definition symmetric_matrix (n : nat) (normal : nat -> nat -> R) : mat :=
  map (fun i => map (fun j => tril n normal i j + tril n normal j i - (if Nat.eqb i j then normal i j else 0)) (seq 0 n)) (seq 0 n).

(** [|np.arange(len_list)[i] - pos|]. *)
(** Models: dataset/synthetic_slate.py 318, 331. *)
Definition distance (i j : nat) : nat := (Nat.max i j - Nat.min i j)%nat.
(** synthetic_slate.py 310-321: column by column, then the diagonal set to zero. *)
Definition standard_decay_matrix (decay : nat -> R) (L : nat) : mat :=
  map (fun r => map (fun c => if Nat.eqb r c then 0 else - decay (distance r c)) (seq 0 L)) (seq 0 L).
(** synthetic_slate.py 323-336: column [pos] is zero in every row [pos2 >= pos]. *)
Definition cascade_decay_matrix (decay : nat -> R) (L : nat) : mat :=
  map (fun pos2 => map (fun pos => if Nat.leb pos pos2 then 0 else - decay (distance pos2 pos)) (seq 0 L)) (seq 0 L).

Record slate_ds := mkSd {
  sd_K : nat; sd_L : nat; sd_dim : nat; sd_binary : bool; sd_structure : structure;
  sd_exam : list R; sd_att : list R; sd_W : mat; sd_fact : bool }.

(** synthetic_slate.py 216-308: [__post_init__] (types apart; the functions are arguments of the methods). *)
Definition slate_init (K L dim : Z) (reward_type structure decay : string) (click : option string) (eta : R) (fact : bool)
    (normal : nat -> nat -> R) : res slate_ds :=
  check_scalar_Z K (Some 2%Z) None ;;;
  check_scalar_Z L (Some 2%Z) (if fact then None else Some K) ;;;
  check_scalar_Z dim (Some 1%Z) None ;;;
  raise_if (negb (String.eqb reward_type "binary" || String.eqb reward_type "continuous")) ValueError ;;;
  match structure_of structure with
  | None => Err ValueError
  | Some st =>
      raise_if (negb (String.eqb decay "exponential" || String.eqb decay "inverse")) ValueError ;;;
      raise_if (match click with None => false | Some c => negb (String.eqb c "cascade" || String.eqb c "pbm") end) ValueError ;;;
      (match click with None => Ok tt | Some _ => check_scalar (Fin eta) (Some (Fin 0)) None end) ;;;
      let l := Z.to_nat L in
      let ones := repeat 1 l in
      let powers := map (fun k => Rpower (1 / INR k) eta) (seq 1 l) in
      let '(exam, att) :=
        match click with
        | Some c => if String.eqb c "pbm" then (powers, ones) else (ones, powers)
        | None => (ones, ones)
        end in
      raise_if (match click with None => false | Some _ => String.eqb reward_type "continuous" end) ValueError ;;;
      let dec := if String.eqb decay "exponential" then exponential_decay else inverse_decay in
      let W := if is_additive st then symmetric_matrix (Z.to_nat K) normal
               else match st with
                    | StandardDecay => standard_decay_matrix dec l
                    | CascadeDecay => cascade_decay_matrix dec l
                    | _ => repeat (repeat 0 l) l
                    end in
      Ok (mkSd (Z.to_nat K) l (Z.to_nat dim) (String.eqb reward_type "binary") st exam att W fact)
  end.

(** ** Propensities *)

(** [softmax(logit[i:i+1, unique_action_set])[0]] *)
(** Models: dataset/synthetic_slate.py 490-500, 600-625. *)
Definition scores (lg : list R) (avail : list nat) : list R := softmax_row (map (fun a => nth a lg 0) avail).
(** [np.where(unique_action_set == a)[0][0]] *)
(** Models: dataset/synthetic_slate.py 361, 400, 495, 619. *)
Fixpoint where_first (avail : list nat) (a : Z) : res nat :=
  match avail with
  | [] => Err IndexError
  | b :: r => if Z.eqb (Z.of_nat b) a then Ok 0%nat else k <- where_first r a ;; Ok (S k)
  end.
(** [np.delete(unique_action_set, unique_action_set == a)] *)
(** Models: dataset/synthetic_slate.py 501-504, 627-630. *)
Definition delete_action (avail : list nat) (a : Z) : list nat := filter (fun b => negb (Z.eqb (Z.of_nat b) a)) avail.

(** [itertools.permutations(avail, k)] and [itertools.product(avail, repeat=k)] *)
(** Models: dataset/synthetic_slate.py 468, 589, 914. *)
Fixpoint perms (avail : list nat) (k : nat) : list (list nat) :=
  match k with
  | O => [[]]
  | S k => flat_map (fun a => map (cons a) (perms (delete_action avail (Z.of_nat a)) k)) avail
  end.
(** Models: dataset/synthetic_slate.py 910. *)
Fixpoint prods (avail : list nat) (k : nat) : list (list nat) :=
  match k with
  | O => [[]]
  | S k => flat_map (fun a => map (cons a) (prods avail k)) avail
  end.

(** Column of the first occurrence, for rows in which the action is known to occur. *)
(** Models: dataset/synthetic_slate.py 361-368, 400-408. *)
Fixpoint index_of (avail : list nat) (a : nat) : nat :=
  match avail with [] => O | b :: r => if Nat.eqb b a then O else S (index_of r a) end.

(** synthetic_slate.py 338-375: [_calc_pscore_given_policy_logit] for one row of [all_slate_actions] (rows do not interact: each
    has exactly one occurrence of its action). *)
Fixpoint calc_logit (lg : list R) (avail : list nat) (acc : R) (s : list nat) : R :=
  match s with
  | [] => acc
  | a :: r => calc_logit lg (delete_action avail (Z.of_nat a)) (acc * nth (index_of avail a) (scores lg avail) 0) r
  end.
(** synthetic_slate.py 377-415: [_calc_pscore_given_policy_softmax]. *)
Fixpoint calc_softmax (ex : list R) (avail : list nat) (acc : R) (s : list nat) : R :=
  match s with
  | [] => acc
  | a :: r =>
      let row := map (fun b => nth b ex 0) avail in
      calc_softmax ex (delete_action avail (Z.of_nat a)) (acc * (nth (index_of avail a) row 0 / Rsum row)) r
  end.

(** synthetic_slate.py 513-526, 641-654: the position-wise propensity by enumeration of all rankings. *)
Definition item_position (K L : nat) (clip : option R) (lg : list R) (pos : nat) (a : Z) : R :=
  let calc := match clip with
              | Some c => calc_softmax (map (fun l => exp (Rmin l c)) lg) (seq 0 K) 1
              | None => calc_logit lg (seq 0 K) 1
              end in
  Rsum (map calc (filter (fun s => Z.eqb (Z.of_nat (nth pos s 0%nat)) a) (perms (seq 0 K) L))).

(** synthetic_slate.py 490-527: one round of [obtain_pscore_given_evaluation_policy_logit]; per position the cascade and the
    position-wise propensity. *)
Fixpoint round_pscores (fact : bool) (lg : list R) (item : nat -> Z -> R) (pos : nat) (avail : list nat) (ps : R) (acts : list Z) : res (list (R * R)) :=
  match acts with
  | [] => Ok []
  | a :: r =>
      let score := scores lg avail in
      k <- where_first avail a ;;
      let ps := ps * nth k score 0 in
      let avail := if fact then avail else delete_action avail a in
      let it := if Nat.eqb pos 0 then ps else if fact then nth k score 0 else item pos a in
      rest <- round_pscores fact lg item (S pos) avail ps r ;;
      Ok ((ps, it) :: rest)
  end.
(** [pscore[start:end] = pscore_i]: the last cascade propensity, at every position. *)
(** Models: dataset/synthetic_slate.py 505-533. *)
Definition joint_of (cs : list (R * R)) : R := last (map fst cs) 1.

(** [action.reshape((-1, L))] *)
(** Models: dataset/synthetic_slate.py 1429. *)
Fixpoint chunks {A} (n L : nat) (l : list A) : list (list A) :=
  match n with O => [] | S n => firstn L l :: chunks n L (skipn L l) end.

(** Models: dataset/synthetic_slate.py 1022-1210 (the three propensities returned). *)
Record pscores := mkPs { ps_joint : list R; ps_item : option (list R); ps_cascade : list R }.
(** Models: dataset/synthetic_slate.py 1022-1210. *)
Definition pscores_of (item : bool) (L : nat) (rounds : list (list (R * R))) : pscores :=
  mkPs (concat (map (fun cs => repeat (joint_of cs) L) rounds))
       (if item then Some (concat (map (map snd) rounds)) else None)
       (concat (map (map fst) rounds)).

(** synthetic_slate.py 417-533: [obtain_pscore_given_evaluation_policy_logit]. *)
Definition obtain_pscore (d : slate_ds) (action : list Z) (logit : mat) (item : bool) (clip : option R) : res pscores :=
  let n := length logit in
  raise_if (negb (Nat.eqb (length action) (n * sd_L d)) || negb (Nat.eqb (length (nth 0 logit [])) (sd_K d))) ValueError ;;;
  (match clip with Some c => if item then check_scalar (Fin c) None (Some (Fin 700)) else Ok tt | None => Ok tt end) ;;;
  rounds <- mapM (fun la => round_pscores (sd_fact d) (fst la) (item_position (sd_K d) (sd_L d) clip (fst la)) 0 (seq 0 (sd_K d)) 1 (snd la))
                 (combine logit (chunks n (sd_L d) action)) ;;
  Ok (pscores_of item (sd_L d) rounds).

(** synthetic_slate.py 611-655: one round of [sample_action_and_obtain_pscore]; [us] are the uniform numbers behind the
    [random_.choice] of each position. *)
Fixpoint sample_round (fact uniform_policy : bool) (K : nat) (lg : list R) (item : nat -> Z -> R) (pos : nat) (avail : list nat) (ps : R) (us : list R)
    : list (nat * (R * R)) :=
  match us with
  | [] => []
  | u :: r =>
      let score := scores lg avail in
      let a := nth (sample_action_row score u) avail 0%nat in
      let k := index_of avail a in
      let ps := ps * nth k score 0 in
      let avail := if fact then avail else delete_action avail (Z.of_nat a) in
      let it := if uniform_policy then 1 / INR K
                else if fact then nth k score 0
                else if Nat.eqb pos 0 then ps else item pos (Z.of_nat a) in
      (a, (ps, it)) :: sample_round fact uniform_policy K lg item (S pos) avail ps r
  end.
(** synthetic_slate.py 535-661: [sample_action_and_obtain_pscore]; [us i] are the uniform numbers of round i. *)
Definition sample_slates (d : slate_ds) (uniform_policy : bool) (logit : mat) (item : bool) (clip : option R) (us : list (list R)) : res (list Z * pscores) :=
  (match clip with Some c => if item then check_scalar (Fin c) None (Some (Fin 700)) else Ok tt | None => Ok tt end) ;;;
  let rounds := map (fun lu => sample_round (sd_fact d) uniform_policy (sd_K d) (fst lu) (item_position (sd_K d) (sd_L d) clip (fst lu)) 0 (seq 0 (sd_K d)) 1 (snd lu))
                    (combine logit us) in
  Ok (concat (map (map (fun x => Z.of_nat (fst x))) rounds), pscores_of item (sd_L d) (map (map snd) rounds)).

(** ** Rewards *)

(** [astype("int8")] *)
(** Models: dataset/synthetic_slate.py 916, 1429. *)
Definition int8 (z : Z) : Z := ((z + 128) mod 256 - 128)%Z.

(** synthetic_slate.py 1437-1468: the (linear) reward of every position of every slate.  [rows] is action_2d, [per] is
    n_enumerated_slate_actions, [E] the base values per round and action. *)
Definition slot_value (st : structure) (W E : mat) (L per : nat) (r : nat) (row : list Z) (pos : nat) : res R :=
  let cell (m : mat) (i : nat) (a : Z) := np_get (nth i m []) a in
  let at_ p := nth p row 0%Z in
  base <- cell E (r / per)%nat (at_ pos) ;;
  match st with
  | Independent => Ok base
  | _ =>
      terms <- mapM (fun p2 =>
                 if is_additive st
                 then wr <- np_get W (at_ pos) ;; np_get wr (at_ p2)
                 else e <- cell E (r / per)%nat (at_ p2) ;; Ok (e * nth p2 (nth pos W []) 0))
               (if is_cascade st then seq 0 pos else filter (fun p2 => negb (Nat.eqb p2 pos)) (seq 0 L)) ;;
      Ok (fold_left Rplus terms base)
  end.

Definition logit_fn (p : R) : R := ln (p / (1 - p)).
Definition has_shape (m : mat) (r c : nat) : bool := (Nat.eqb (length m) r && forallb (fun x => Nat.eqb (length x) c) m)%bool.

(** synthetic_slate.py 1313-1479: [action_interaction_reward_function]; [E] is the base reward of the contexts (its values are
    assumed to lie in (0,1) for binary rewards), [K] the number of rows of [action_context], [per] counts actions, not slates:
    [len(action) // n_rounds]. *)
Definition interaction_reward (E : mat) (n K : nat) (action : list Z) (binary : bool) (st : structure) (W : mat) (L : nat) (enumerated : bool) : res mat :=
  raise_if (enumerated && negb (Nat.eqb (length action mod L) 0))%bool ValueError ;;;
  raise_if (negb enumerated && negb (Nat.eqb (length action) (L * n)))%bool ValueError ;;;
  raise_if (negb (if is_additive st then has_shape W K K else has_shape W L L)) ValueError ;;;
  raise_if (Nat.eqb n 0) ZeroDivisionError ;;;
  let action := if enumerated then concat (repeat action n) else action in
  let rows := chunks (length action / L) L (map int8 action) in
  let per := (length action / n)%nat in
  let E := if binary then map (map logit_fn) E else E in
  values <- mapM (fun ir => mapM (slot_value st W E L per (fst ir) (snd ir)) (seq 0 L)) (combine (seq 0 (length rows)) rows) ;;
  Ok (map (map (fun v => if binary then sigmoid v else Rmax v 0)) values).

(** synthetic_slate.py 693-709: one slate of binary rewards; [flip pos p] is the binomial draw. *)
Fixpoint click_loop (att : list R) (flip : nat -> R -> bool) (pos : nat) (disc prev : R) (e : list R) : res (list R) :=
  match e with
  | [] => Ok []
  | x :: r =>
      let disc := disc * (prev * nth pos att 0 + (1 - prev)) in
      let p := disc * x in
      raise_if (Rltb p 0 || Rltb 1 p)%bool ValueError ;;;
      let y := if flip pos p then 1 else 0 in
      rest <- click_loop att flip (S pos) disc y r ;;
      Ok (y :: rest)
  end.
(** [expected_reward_factual *= exam_weight] *)
(** Models: dataset/synthetic_slate.py 693, 999. *)
Definition examined (exam : list R) (row : list R) : list R := map (fun xw => fst xw * snd xw) (combine row exam).
(** synthetic_slate.py 677-727: [sample_reward_given_expected_reward]; [tn seed a b loc scale i] is the i-th draw of a truncated
    normal with freshly seeded generator.  Also returned: the array the argument has become. *)
Definition sample_slate_reward (d : slate_ds) (tn : R -> R -> R -> R -> nat -> R) (flip : nat -> nat -> R -> bool) (expected : mat) : res (mat * mat) :=
  let e := map (examined (sd_exam d)) expected in
  if sd_binary d
  then rs <- mapM (fun ie => click_loop (sd_att d) (flip (fst ie)) 0 1 0 (snd ie)) (combine (seq 0 (length e)) e) ;; Ok (e, rs)
  else Ok (e, map (fun ie => map (fun m => tn ((0 - m) / 1) ((10 ^ 10 - m) / 1) m 1 (fst ie)) (snd ie)) (combine (seq 0 (length e)) e)).

Record slate_batch := mkSb {
  sb_n : nat; sb_slate : list Z; sb_position : list Z; sb_action : list Z; sb_reward : list R; sb_expected : list R; sb_ps : pscores }.

(** synthetic_slate.py 729-840: [obtain_batch_bandit_feedback].  [free] is the context-free reward table, [base] the base reward
    function and [beh] the behaviour policy (logits) of the contexts, if any. *)
Definition slate_obtain (d : slate_ds) (free : mat) (base beh : option (mat -> mat)) (tn : R -> R -> R -> R -> nat -> R)
    (n_rounds : Z) (context : mat) (item : bool) (clip : option R) (us : list (list R)) (flip : nat -> nat -> R -> bool) : res slate_batch :=
  check_scalar_Z n_rounds (Some 1%Z) None ;;;
  let n := Z.to_nat n_rounds in
  let logit := match beh with None => repeat (repeat (1 / INR (sd_K d)) (sd_K d)) n | Some f => f context end in
  raise_if (negb (has_shape logit n (sd_K d))) ValueError ;;;
  ap <- sample_slates d (match beh with None => true | Some _ => false end) logit item clip us ;;
  let action := fst ap in
  expected <- (match base with
               | None => mapM (fun row => mapM (fun pa => r <- np_get free (snd pa) ;; np_get r (Z.of_nat (fst pa))) (combine (seq 0 (sd_L d)) row))
                              (chunks n (sd_L d) action)
               | Some f => interaction_reward (f context) (length context) (sd_K d) action (sd_binary d) (sd_structure d) (sd_W d) (sd_L d) false
               end) ;;
  raise_if (negb (has_shape expected n (sd_L d))) ValueError ;;;
  er <- sample_slate_reward d tn flip expected ;;
  Ok (mkSb n (map Z.of_nat (concat (map (fun i => repeat i (sd_L d)) (seq 0 n)))) (map Z.of_nat (concat (repeat (seq 0 (sd_L d)) n)))
           action (concat (snd er)) (concat (fst er)) (snd ap)).

(** ** Policy values *)

(** synthetic_slate.py 842-868: [calc_on_policy_policy_value]. *)
Definition slate_on_policy (reward : list R) (slate_id : list Z) : res num :=
  raise_if (negb (Nat.eqb (length reward) (length slate_id))) ValueError ;;;
  Ok (ndiv (Fin (Rsum reward)) (nnat (length (distinct slate_id)))).

(** synthetic_slate.py 999-1013: discounting by expected rewards. *)
Fixpoint discount_loop (att : list R) (pos : nat) (disc prev : R) (e : list R) : list R :=
  match e with
  | [] => []
  | x :: r => let disc := disc * (prev * nth pos att 0 + (1 - prev)) in
              let y := disc * x in y :: discount_loop att (S pos) disc y r
  end.

(** synthetic_slate.py 966-970: rounds per batch, when there are [m] slates. *)
Definition batch_rounds (n m L : nat) : nat :=
  (let nz := Z.of_nat n in
   let n_batch := (nz * Z.of_nat m * Z.of_nat L - 1) / 10 ^ 7 + 1 in
   Z.to_nat ((nz - 1) / n_batch + 1))%Z.

(** synthetic_slate.py 870-1020: [calc_ground_truth_policy_value], for at most 128 actions (the enumerated actions are stored as
    int8) and at least one round. *)
Definition slate_ground_truth (d : slate_ds) (free : mat) (base : option (mat -> mat)) (context logit : mat) : res R :=
  raise_if (negb (Nat.eqb (length (nth 0 logit [])) (sd_K d))) ValueError ;;;
  raise_if (negb (Nat.eqb (length (nth 0 context [])) (sd_dim d))) ValueError ;;;
  raise_if (negb (Nat.eqb (length logit) (length context))) ValueError ;;;
  let n := length logit in
  let all := if sd_fact d then prods (seq 0 (sd_K d)) (sd_L d) else perms (seq 0 (sd_K d)) (sd_L d) in
  let ps := map (fun lg => map (fun s => if sd_fact d
                                        then fold_left (fun acc a => acc * nth a (softmax_row lg) 0) s 1
                                        else calc_logit lg (seq 0 (sd_K d)) 1 s) all) logit in
  match base with
  | None =>
      values <- mapM (fun s => vs <- mapM (fun pa => r <- np_get free (snd pa) ;; np_get r (Z.of_nat (fst pa)))
                                          (combine (seq 0 (sd_L d)) (map (fun a => int8 (Z.of_nat a)) s)) ;; Ok (Rsum vs)) all ;;
      Ok (Rsum (map (fun row => Rsum (map (fun pv => fst pv * snd pv) (combine row values))) ps))
  | Some f =>
      let b := batch_rounds n (length all) (sd_L d) in
      let n_batch := ((n - 1) / b + 1)%nat in
      values <- mapM (fun cp =>
                  rewards <- interaction_reward (f (fst cp)) (length (fst cp)) (sd_K d) (map (fun a => int8 (Z.of_nat a)) (concat all))
                                                (sd_binary d) (sd_structure d) (sd_W d) (sd_L d) true ;;
                  let e := map (examined (sd_exam d)) rewards in
                  let e := if sd_binary d then map (discount_loop (sd_att d) 0 1 0) e else e in
                  Ok (Rsum (map (fun pv => fst pv * snd pv) (combine (concat (snd cp)) (map Rsum e)))))
                (combine (chunks n_batch b context) (chunks n_batch b ps)) ;;
      Ok (Rsum values / INR n)
  end.

(** ** Evaluation policies *)

(** [np.cumprod] of a row. *)
(** Models: dataset/synthetic_slate.py 1077, 1092, 1276. *)
Fixpoint cumprod (acc : R) (l : list R) : list R := match l with [] => [] | x :: r => (acc * x) :: cumprod (acc * x) r end.
(** [scipy.special.perm(K, L)] *)
(** Models: dataset/synthetic_slate.py 1213-1290. *)
Fixpoint perm_count (K L : nat) : R := match L with O => 1 | S l => INR K * perm_count (K - 1) l end.

(** synthetic_slate.py 1073-1100: the three propensities of the uniformly random policy. *)
Definition random_pscores (d : slate_ds) (n : nat) : pscores :=
  let K := sd_K d in let L := sd_L d in
  let cascade := if sd_fact d then cumprod 1 (repeat (1 / INR K) L)
                 else map (fun x => 1 / x) (cumprod 1 (map (fun k => INR (K - k)) (seq 0 L))) in
  let joint := if sd_fact d then 1 / INR K ^ L else 1 / perm_count K L in
  mkPs (repeat joint (n * L)) (Some (repeat (1 / INR K) (n * L))) (concat (repeat cascade n)).

Definition b2r (b : bool) : R := if b then 1 else 0.
Definition mix (eps : R) (flag : list R) (p : list R) : list R :=
  map (fun fp => fst fp * (1 - eps) + eps * snd fp) (combine flag p).
(** synthetic_slate.py 1213-1286: [_calc_epsilon_greedy_pscore]. *)
Definition epsilon_pscores (d : slate_ds) (eps : R) (action_2d : list (list Z)) (sorted : list (list nat)) (rnd : pscores) : res pscores :=
  raise_if (negb (sd_fact d) && negb (forallb (fun x => Nat.eqb (length (distinct x)) (sd_L d)) action_2d && negb (Nat.eqb (length action_2d) 0)))%bool ValueError ;;;
  let flags := map (fun sa => if sd_fact d then map (Z.eqb (Z.of_nat (nth 0 (fst sa) 0%nat))) (snd sa)
                              else map (fun ba => Z.eqb (Z.of_nat (fst ba)) (snd ba)) (combine (fst sa) (snd sa))) (combine sorted action_2d) in
  Ok (mkPs (mix eps (concat (map (fun f => repeat (b2r (forallb (fun b => b) f)) (sd_L d)) flags)) (ps_joint rnd))
           (match ps_item rnd with None => None | Some p => Some (mix eps (concat (map (map b2r) flags)) p) end)
           (mix eps (concat (map (fun f => cumprod 1 (map b2r f)) flags)) (ps_cascade rnd))).

(** synthetic_slate.py 1022-1146: [generate_evaluation_policy_pscore]; [argsort] sorts ascending, [base] is the base reward
    function at the contexts. *)
Definition generate_pscore (argsort : list R -> list nat) (d : slate_ds) (kind : string) (base : option (mat -> mat)) (context : mat) (action : list Z) (eps : R) : res pscores :=
  raise_if (negb (String.eqb kind "optimal" || String.eqb kind "anti-optimal" || String.eqb kind "random")) ValueError ;;;
  let n := length context in
  let rnd := random_pscores d n in
  if String.eqb kind "random" then Ok rnd
  else
    E <- (match base with Some f => Ok (f context) | None => Err TypeError end) ;;
    raise_if (negb (Nat.eqb (length action) (n * sd_L d))) ValueError ;;;
    let action_2d := chunks n (sd_L d) action in
    check_scalar (Fin eps) (Some (Fin 0)) (Some (Fin 1)) ;;;
    let sorted := if String.eqb kind "optimal" then map (fun row => firstn (sd_L d) (argsort row)) E
                  else map (fun row => let s := argsort row in skipn (length s - sd_L d) s) E in
    epsilon_pscores d eps action_2d sorted rnd.

(** synthetic_slate.py 1148-1211: [calc_evaluation_policy_action_dist]. *)
Fixpoint mask_logits (lg : list R) (pos : nat) (acts : list Z) : res (list R) :=
  match pos, acts with
  | S p, a :: r => k <- np_index (length lg) a ;; mask_logits (set_nth lg k (- 10 ^ 4)) p r
  | _, _ => Ok lg
  end.
Definition eval_action_dist (d : slate_ds) (action : list Z) (logit : mat) : res (list R) :=
  raise_if (negb (Nat.eqb (length (nth 0 logit [])) (sd_K d))) ValueError ;;;
  raise_if (negb (Nat.eqb (length action) (length logit * sd_L d))) ValueError ;;;
  rows <- mapM (fun la => mapM (fun pos => lg <- (if sd_fact d then Ok (fst la) else mask_logits (fst la) pos (snd la)) ;; Ok (softmax_row lg)) (seq 0 (sd_L d)))
               (combine logit (chunks (length logit) (sd_L d) action)) ;;
  Ok (concat (concat rows)).

(** synthetic_slate.py 1482-1522: [linear_behavior_policy_logit]; [coef], [acoef] are the uniform draws. *)
Definition linear_logits (context action_context : mat) (coef acoef : list R) (tau : R) : res arr2 :=
  check_scalar (Fin tau) (Some (Fin 0)) None ;;;
  Ok (map (fun x => map (fun a => ndiv (Fin (rdot x coef + rdot a acoef)) (Fin tau)) action_context) context).
