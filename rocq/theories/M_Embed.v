(** * M_Embed: model of obp/ope/estimators_embed.py (marginalized IPW with action embeddings).

    [action_embed] is an integer array of shape (n, D); [p_e_a] has shape (n_actions, C, D).  The
    fitted classifier of [_estimate_w_x_e] is a function argument [fit_proba] from the (column-selected)
    embedding matrix to the matrix [predict_proba] returns; [argsort] is [np.argsort]; [ppf] is the value
    of [stats.t.ppf(1 - delta/2, n - 1)]. *)

From Coq Require Import Reals List ZArith Bool.
From Verif Require Import Num NpList M_Utils M_Estimators M_Slate M_Multi.
Import ListNotations.
Open Scope R_scope.

(** [np.arange(n)], [m[:, d]] of a 2-D array *)
(** Models: ope/estimators_embed.py 168-172. *)
Definition column {A : Type} (m : list (list A)) (d : nat) : res (list A) :=
  mapM (fun row => np_get row (Z.of_nat d)) m.
(** [a[:, :, d]] of a 3-D array *)
(** Models: ope/estimators_embed.py 169, 171. *)
Definition plane (a : arr3) (d : nat) : res arr2 := mapM (fun m => column m d) a.
(** [m[:, comb]] and [a[:, :, comb]] *)
(** Models: ope/estimators_embed.py 355-370, 427, 458. *)
Definition columns {A : Type} (m : list (list A)) (comb : list nat) : res (list (list A)) :=
  mapM (fun row => mapM (fun d => np_get row (Z.of_nat d)) comb) m.
(** Models: ope/estimators_embed.py 370, 427, 458. *)
Definition planes (a : arr3) (comb : list nat) : res arr3 := mapM (fun m => columns m comb) a.

(** [x @ y]: ValueError when the inner dimensions differ. *)
(** Models: ope/estimators_embed.py 169, 171. *)
Definition row_times (x : arr1) (y : arr2) : res arr1 :=
  if Nat.eqb (length x) (length y)
  then Ok (map (fun j => nsum (map (fun p => nmul (fst p) (nth_num (snd p) j)) (combine x y)))
               (seq 0 (match y with [] => 0%nat | r :: _ => length r end)))
  else Err ValueError.
(** Models: ope/estimators_embed.py 169, 171. *)
Definition matmul (x y : arr2) : res arr2 := mapM (fun r => row_times r y) x.

(** [m[np.arange(n), idx]] *)
(** Models: ope/estimators_embed.py 170, 172. *)
Definition pick (m : arr2) (n : nat) (idx : list Z) : res arr1 :=
  ii <- bcast2_idx (arange n) idx ;;
  mapM (fun p => row <- np_get m (fst p) ;; np_get row (snd p)) ii.

(** estimators_embed.py 168-170 (and 171-172 with the evaluation policy): marginal probability of the
    logged category in dimension [d]. *)
Definition marginal (pi : arr3) (p_e_a : arr3) (action_embed : list (list Z)) (position : list Z)
    (n d : nat) : res arr1 :=
  rows <- fancy3_row pi (arange n) position ;;
  pl <- plane p_e_a d ;;
  m <- matmul rows pl ;;
  idx <- column action_embed d ;;
  pick m n idx.

(** [x *= y] in the loop over dimensions. *)
(** Models: ope/estimators_embed.py 168-172, 693-697. *)
Fixpoint marginal_loop (pi p_e_a : arr3) (action_embed : list (list Z)) (position : list Z) (n : nat)
    (ds : list nat) (acc : arr1) : res arr1 :=
  match ds with
  | [] => Ok acc
  | d :: r =>
      m <- marginal pi p_e_a action_embed position n d ;;
      acc' <- bcast2 nmul acc m ;;
      marginal_loop pi p_e_a action_embed position n r acc'
  end.

(** estimators_embed.py 164-174: weights from the true [p_e_a].  The two accumulators are updated in
    one loop in the code; they are independent, so two loops are run here. *)
Definition w_true (pi_b action_dist p_e_a : arr3) (action_embed : list (list Z)) (position : list Z)
    (n : nat) : res arr1 :=
  let ds := seq 0 (dim2 p_e_a) in
  pb <- marginal_loop pi_b p_e_a action_embed position n ds (repeat (Fin 1) n) ;;
  pe <- marginal_loop action_dist p_e_a action_embed position n ds (repeat (Fin 1) n) ;;
  bcast2 ndiv pe pb.

(** estimators_embed.py 195-217: [_estimate_w_x_e].  The assignment
    [pi_a_x_e[:, np.unique(action)] = predict_proba(x_e)] needs one probability per unique action
    (broadcasting of a one-column matrix is left out: sklearn returns one column per class). *)
Fixpoint scatter (row : arr1) (idx : list Z) (v : arr1) : res arr1 :=
  match idx, v with
  | [], [] => Ok row
  | i :: idx', x :: v' => row' <- np_set row i x ;; scatter row' idx' v'
  | _, _ => Err ValueError
  end.
Definition w_est (n_actions : nat) (fit_proba : list (list Z) -> arr2) (action : list Z)
    (pi_b action_dist : arr3) (action_embed : list (list Z)) (position : list Z) (n : nat) : res arr1 :=
  pe <- fancy3_row action_dist (arange n) position ;;
  pb <- fancy3_row pi_b (arange n) position ;;
  w_x_a <- mapM (fun p => bcast2 ndiv (fst p) (snd p)) (combine pe pb) ;;
  let w_x_a := map (map (fun w => if nlt w PInf then w else Fin 0)) w_x_a in
  let proba := fit_proba action_embed in
  raise_if (negb (Nat.eqb (length proba) (length action))) ValueError ;;;
  pi_a_x_e <- mapM (fun v => scatter (repeat (Fin 0) n_actions) (np_unique action) v) proba ;;
  prod <- mapM (fun p => bcast2 nmul (fst p) (snd p)) (combine w_x_a pi_a_x_e) ;;
  Ok (map nsum prod).

(** The data of one call, after defaults. *)
(** Models: ope/estimators_embed.py 219-330 (keyword arguments). *)
Record ecall := mkECall {
  ec_reward : arr1; ec_action : list Z; ec_embed : list (list Z);
  ec_pib : arr3; ec_pie : arr3; ec_pos : list Z; ec_pea : option arr3;
  ec_nact : nat; ec_fit : list (list Z) -> arr2
}.

(** estimators_embed.py 164-184: the weights of a call, with [max_w_x_e] raising on an empty log. *)
Definition ec_weights (c : ecall) (embed : list (list Z)) (pea : option arr3) : res arr1 :=
  let n := length (ec_reward c) in
  w <- (match pea with
        | Some p => w_true (ec_pib c) (ec_pie c) p embed (ec_pos c) n
        | None => w_est (ec_nact c) (ec_fit c) (ec_action c) (ec_pib c) (ec_pie c) embed (ec_pos c) n
        end) ;;
  _ <- nmaxl w ;;
  Ok w.

(** estimators_embed.py 193 and 718: round-wise rewards; [sn] is the self-normalized class. *)
Definition ec_rounds (sn : bool) (c : ecall) : res arr1 :=
  w <- ec_weights c (ec_embed c) (ec_pea c) ;;
  rw <- bcast2 nmul (ec_reward c) w ;;
  Ok (if sn then map (fun x => ndiv x (nmean w)) rw else rw).

(** estimators_embed.py 186-191 and 711-716 (identical in both classes): mean and confidence width on a
    selection of embedding dimensions. *)
Definition ec_dev (ppf : num) (c : ecall) (comb : list nat) : res (num * num) :=
  embed <- columns (ec_embed c) comb ;;
  pea <- (match ec_pea c with Some p => p' <- planes p comb ;; Ok (Some p') | None => Ok None end) ;;
  w <- ec_weights c embed pea ;;
  rh <- bcast2 nmul (ec_reward c) w ;;
  let n := length (ec_reward c) in
  Ok (nmean rh, nmul (nsqrt (ndiv (nvar rh) (nsub (nnat n) (Fin 1)))) ppf).

(** [itertools.combinations(l, k)] *)
(** Models: ope/estimators_embed.py 347. *)
Fixpoint combinations (l : list nat) (k : nat) : list (list nat) :=
  match k, l with
  | O, _ => [[]]
  | S _, [] => []
  | S k', x :: r => map (cons x) (combinations r k') ++ combinations r k
  end.

(** [C = np.sqrt(6) - 1]; lines 383 and 469:
    [(np.abs(theta_j - theta_i) <= cnf_i + C * cnf_j).all()] *)
Definition Csel : num := Fin (sqrt 6 - 1).
Definition compatible_all (i : num * num) (acc : list (num * num)) : bool :=
  forallb (fun j => nle (nabs (nsub (fst j) (fst i))) (nadd (snd i) (nmul Csel (snd j)))) acc.

(** Lines 379-386 and 464-472: test the candidates in order; [acc] is (theta_list, cnf_list), [tj] the
    last snapshot [theta_j].  [inl] is the early return, [inr] the state after the loop. *)
Fixpoint select_loop (cands : list (num * num)) (acc : list (num * num)) (tj : option (list (num * num)))
  : num + (list (num * num) * option (list (num * num))) :=
  match cands with
  | [] => inr (acc, tj)
  | i :: r =>
      if compatible_all i acc then select_loop r (acc ++ [i]) (Some acc)
      else inl (fst (last acc (NaN, NaN)))
  end.

(** [[x[i] for i in np.argsort(widths)[::-1]]] *)
(** Models: ope/estimators_embed.py 379-381. *)
Definition by_width {A : Type} (argsort : list num -> list nat) (width : A -> num) (l : list A) : res (list A) :=
  mapM (fun i => match nth_error l i with Some x => Ok x | None => Err IndexError end)
       (rev (argsort (map width l))).

(** [return theta_j[-1]]: UnboundLocalError (a NameError) when no snapshot was taken. *)
(** Models: ope/estimators_embed.py 386-388. *)
Definition final_value (tj : option (list (num * num))) : res num :=
  match tj with Some l => Ok (fst (last l (NaN, NaN))) | None => Err NameError end.

(** estimators_embed.py 331-388: [_estimate_with_exact_pruning]; [sizes] is
    [np.arange(n_emb_dim, min_emb_dim - 1, -1)]. *)
Fixpoint exact_loop (argsort : list num -> list nat) (est : list nat -> res (num * num)) (feat : list nat)
    (sizes : list nat) (acc : list (num * num)) (tj : option (list (num * num))) : res num :=
  match sizes with
  | [] => final_value tj
  | i :: r =>
      vals <- mapM est (combinations feat i) ;;
      let '(acc1, cands) := match acc, vals with
                            | [], v :: vs => ([v], vs)
                            | _, _ => (acc, vals)
                            end in
      sorted <- by_width argsort snd cands ;;
      match select_loop sorted acc1 tj with
      | inl v => Ok v
      | inr (acc', tj') => exact_loop argsort est feat r acc' tj'
      end
  end.
Definition exact_pruning argsort est (n_emb_dim min_emb_dim : nat) : res num :=
  exact_loop argsort est (seq 0 n_emb_dim)
    (rev (seq min_emb_dim (S n_emb_dim - min_emb_dim))) [] None.

(** estimators_embed.py 390-476: [_estimate_with_greedy_pruning]; the while loop removes one dimension
    per iteration, so [fuel] = the number of dimensions suffices. *)
Fixpoint greedy_loop (argsort : list num -> list nat) (est : list nat -> res (num * num)) (fuel : nat)
    (min_emb_dim : nat) (feat : list nat) (acc : list (num * num)) (tj : option (list (num * num))) : res num :=
  if Nat.ltb min_emb_dim (length feat) then
    match fuel with
    | O => Err RuntimeError
    | S fuel' =>
        vals <- mapM (fun d => v <- est (filter (fun f => negb (Nat.eqb f d)) feat) ;; Ok (d, v)) feat ;;
        sorted <- by_width argsort (fun p => snd (snd p)) vals ;;
        match select_loop (map snd sorted) acc tj with
        | inl v => Ok v
        | inr (acc', tj') =>
            match sorted with
            | [] => Err NameError
            | p :: _ =>
                let excluded := fst (last sorted p) in
                greedy_loop argsort est fuel' min_emb_dim (filter (fun f => negb (Nat.eqb f excluded)) feat) acc' tj'
            end
        end
    end
  else final_value tj.
Definition greedy_pruning argsort est (n_emb_dim min_emb_dim : nat) : res num :=
  v <- est (seq 0 n_emb_dim) ;;
  greedy_loop argsort est n_emb_dim min_emb_dim (seq 0 n_emb_dim) [v] None.

Inductive selection := Exact | Greedy.

(** estimators_embed.py 273-294: validation. *)
Definition embed_checks (reward : arr1) (action : list Z) (pi_b action_dist : arr3)
    (position : option (list Z)) (p_e_a : option arr3) (context_given : bool) : res unit :=
  check_ope_inputs pi_b position (Some action) (Some reward) None None None ;;;
  check_ope_inputs action_dist position (Some action) (Some reward) None None None ;;;
  match p_e_a with
  | Some _ => Ok tt
  | None => raise_if (negb context_given) ValueError
  end.

(** estimators_embed.py 219-329: [estimate_policy_value]. *)
Definition mipw_value (sn : bool) (sel : option selection) (min_emb_dim : nat) argsort ppf n_actions fit_proba
    (reward : arr1) (action : list Z) (action_embed : list (list Z)) (pi_b action_dist : arr3)
    (position : option (list Z)) (p_e_a : option arr3) (context_given : bool) : res num :=
  embed_checks reward action pi_b action_dist position p_e_a context_given ;;;
  let c := mkECall reward action action_embed pi_b action_dist (default_position action_dist position) p_e_a
                   n_actions fit_proba in
  let D := match action_embed with [] => 0%nat | r :: _ => length r end in
  match (if Nat.ltb 1 D then sel else None) with
  | Some Exact => exact_pruning argsort (ec_dev ppf c) D min_emb_dim
  | Some Greedy => greedy_pruning argsort (ec_dev ppf c) D min_emb_dim
  | None => rr <- ec_rounds sn c ;; Ok (nmean rr)
  end.

(** estimators_embed.py 478-582: [estimate_interval] (never selects dimensions). *)
Definition mipw_interval (sn : bool) n_actions fit_proba
    (reward : arr1) (action : list Z) (action_embed : list (list Z)) (pi_b action_dist : arr3)
    (position : option (list Z)) (p_e_a : option arr3) (context_given : bool)
    (alpha : R) (n_boot : Z) (choice : nat -> nat -> nat) : res interval :=
  embed_checks reward action pi_b action_dist position p_e_a context_given ;;;
  rr <- ec_rounds sn (mkECall reward action action_embed pi_b action_dist
                        (default_position action_dist position) p_e_a n_actions fit_proba) ;;
  estimate_confidence_interval_by_bootstrap rr alpha n_boot choice.
