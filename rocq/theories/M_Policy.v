(** * M_Policy: model of obp/policy/base.py (context-free part) and obp/policy/contextfree.py.

    Random draws are arguments: [u] is the value of [random_.rand()], [choice] the array returned by
    [random_.choice(n_actions, size=len_list, replace=False)], [beta_draw a b] the array returned by
    [random_.beta(a, b)]; [argsort] is [np.argsort].  Policy names (strings) are not modelled.  A method
    that can raise returns the object as it is afterwards together with the outcome. *)

From Coq Require Import Reals List ZArith Bool.
From Verif Require Import Num NpList M_Utils.
Import ListNotations.
Open Scope R_scope.

(** base.py 38-53: attributes of a [BaseContextFreePolicy]. *)
Record cfp : Type := mkCfp {
  cf_n_actions : nat;
  cf_len_list : nat;
  cf_batch_size : nat;
  cf_n_trial : nat;
  cf_action_counts : list Z;
  cf_action_counts_temp : list Z;
  cf_reward_counts_temp : arr1;
  cf_reward_counts : arr1 }.

(** base.py 43-53: [BaseContextFreePolicy.__post_init__]. *)
Definition cf_post_init (n_actions len_list batch_size : Z) : res cfp :=
  check_scalar_Z n_actions (Some 2%Z) None ;;;
  check_scalar_Z len_list (Some 1%Z) (Some n_actions) ;;;
  check_scalar_Z batch_size (Some 1%Z) None ;;;
  let K := Z.to_nat n_actions in
  Ok (mkCfp K (Z.to_nat len_list) (Z.to_nat batch_size) 0 (zzeros K) (zzeros K)
            (repeat (Fin 0) K) (repeat (Fin 0) K)).

(** base.py 60-67: [BaseContextFreePolicy.initialize]. *)
Definition cf_initialize (p : cfp) : cfp :=
  let K := cf_n_actions p in
  mkCfp K (cf_len_list p) (cf_batch_size p) 0 (zzeros K) (zzeros K) (repeat (Fin 0) K) (repeat (Fin 0) K).

(** contextfree.py 76-93 and 221-238: [update_params] of [EpsilonGreedy], [Random] and [BernoulliTS]
    (the two bodies are identical).  The counter [n_trial] is incremented before the indexing that can
    raise. *)
Definition cf_update_params (p : cfp) (action : Z) (reward : num) : cfp * res unit :=
  let n_trial := S (cf_n_trial p) in
  match np_index (cf_n_actions p) action with
  | Err e =>
      (mkCfp (cf_n_actions p) (cf_len_list p) (cf_batch_size p) n_trial (cf_action_counts p)
             (cf_action_counts_temp p) (cf_reward_counts_temp p) (cf_reward_counts p), Err e)
  | Ok i =>
      let act := set_nth (cf_action_counts_temp p) i (nth i (cf_action_counts_temp p) 0 + 1)%Z in
      let rct := set_nth (cf_reward_counts_temp p) i (nadd (nth i (cf_reward_counts_temp p) NaN) reward) in
      let commit := Nat.eqb (n_trial mod cf_batch_size p) 0 in
      (mkCfp (cf_n_actions p) (cf_len_list p) (cf_batch_size p) n_trial
             (if commit then act else cf_action_counts p) act rct
             (if commit then rct else cf_reward_counts p), Ok tt)
  end.

(** [x.argsort()[::-1][:len_list]], used by every [select_action]. *)
(** Models: policy/contextfree.py 70, 219; policy/linear.py 160, 242, 307; policy/logistic.py 163, 241, 302. *)
Definition top_k (argsort : list num -> list nat) (len_list : nat) (x : arr1) : list nat :=
  firstn len_list (rev (argsort x)).

(** contextfree.py 59-74: [EpsilonGreedy.select_action] ([Random] inherits it). *)
Definition eg_select_action (argsort : list num -> list nat) (epsilon : num) (p : cfp) (u : R)
    (choice : list nat) : res (list nat) :=
  if nlt epsilon (Fin u) then
    m <- zminl (cf_action_counts p) ;;
    if Z.ltb 0 m then
      predicted <- bcast2 ndiv (cf_reward_counts p) (map (fun z => Fin (IZR z)) (cf_action_counts p)) ;;
      Ok (top_k argsort (cf_len_list p) predicted)
    else Ok choice
  else Ok choice.

(** contextfree.py 125-146: [Random.compute_batch_action_dist]. *)
Definition random_compute_batch_action_dist (p : cfp) (n_rounds : nat) : arr3 :=
  repeat (repeat (repeat (nmul (Fin 1) (ndiv (Fin 1) (nnat (cf_n_actions p)))) (cf_len_list p))
                 (cf_n_actions p)) n_rounds.

(** contextfree.py 215-218: the two parameter arrays passed to [random_.beta]. *)
Definition bts_params (p : cfp) (alpha beta : arr1) : res (arr1 * arr1) :=
  a <- bcast2 nadd (cf_reward_counts p) alpha ;;
  d <- bcast2 nsub (map (fun z => Fin (IZR z)) (cf_action_counts p)) (cf_reward_counts p) ;;
  b <- bcast2 nadd d beta ;;
  Ok (a, b).

(** [random_.beta(a, b)]: ValueError unless every parameter is positive. *)
(** Models: policy/contextfree.py 215-218. *)
Definition beta_call (beta_draw : arr1 -> arr1 -> arr1) (a b : arr1) : res arr1 :=
  raise_if (negb (forallb (fun x => nlt (Fin 0) x) a)) ValueError ;;;
  raise_if (negb (forallb (fun x => nlt (Fin 0) x) b)) ValueError ;;;
  Ok (beta_draw a b).

(** contextfree.py 206-219: [BernoulliTS.select_action]. *)
Definition bts_select_action (argsort : list num -> list nat) (alpha beta : arr1) (p : cfp)
    (beta_draw : arr1 -> arr1 -> arr1) : res (list nat) :=
  ab <- bts_params p alpha beta ;;
  predicted <- beta_call beta_draw (fst ab) (snd ab) ;;
  Ok (top_k argsort (cf_len_list p) predicted).

(** contextfree.py 265-266: the loop over positions, [action_count[selected[pos], pos] += 1]. *)
Definition bump_positions (len_list : nat) (selected : list nat) (m : arr2) : arr2 :=
  fold_left (fun m pos =>
               let a := nth pos selected 0%nat in
               set_nth m a (set_nth (nth a m []) pos (nadd (nth_num (nth a m []) pos) (Fin 1))))
            (seq 0 len_list) m.

(** contextfree.py 240-271: [BernoulliTS.compute_batch_action_dist]; [draws s] is the beta draw of the
    s-th simulation. *)
Definition bts_compute_batch_action_dist (argsort : list num -> list nat) (alpha beta : arr1) (p : cfp)
    (n_rounds : nat) (n_sim : Z) (draws : nat -> arr1 -> arr1 -> arr1) : res arr3 :=
  let zero := repeat (repeat (Fin 0) (cf_len_list p)) (cf_n_actions p) in
  count <- fold_left (fun acc s =>
                        m <- acc ;;
                        sel <- bts_select_action argsort alpha beta p (draws s) ;;
                        Ok (bump_positions (cf_len_list p) sel m))
                     (seq 0 (Z.to_nat n_sim)) (Ok zero) ;;
  Ok (repeat (map (map (fun c => ndiv c (Fin (IZR n_sim)))) count) n_rounds).
