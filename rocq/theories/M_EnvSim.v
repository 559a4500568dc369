(** * M_EnvSim: the environment of obp/simulator/simulator.py.

    What the random generator and the user-supplied functions return are arguments. *)

From Coq Require Import Reals List ZArith Bool.
From Verif Require Import Num NpList M_Utils M_Feedback M_Sim.
Import ListNotations.
Open Scope R_scope.

(** The fields read after construction; [es_expected] is [self.expected_reward], set without a reward function only.
    [reward_type] and [reward_std] are never read by the class.  The reward function gets the contexts and the action
    contexts; the delay function the number of rounds and the expected rewards.  Models: simulator.py 83-145. *)
Record env_sim : Type := mkEnvSim {
  es_n_actions : Z;
  es_reward_function : option (arr2 -> arr2 -> res arr2);
  es_delay_function : option (nat -> arr2 -> res (list (list R)));
  es_expected : arr1;
  es_action_context : arr2
}.

(** [np.eye(k)].  Models: simulator.py 161. *)
Definition identity_matrix (k : nat) : arr2 := map (fun i => map (fun j => Fin (if Nat.eqb i j then 1 else 0)) (seq 0 k)) (seq 0 k).

(** [__post_init__]; [draws] are the uniform numbers drawn for a context-free environment.
    Models: simulator.py 147-173. *)
Definition env_init (n_actions dim_context : Z) (random_state : option Z) (reward_function : option (arr2 -> arr2 -> res arr2))
    (delay_function : option (nat -> arr2 -> res (list (list R)))) (action_context : option arr2) (draws : arr1) : res env_sim :=
  check_scalar_Z n_actions (Some 2%Z) None ;;;
  check_scalar_Z dim_context (Some 1%Z) None ;;;
  match random_state with None => Err ValueError | Some _ => Ok tt end ;;;
  let expected := match reward_function with None => draws | Some _ => [] end in
  actx <- match action_context with
          | None => Ok (identity_matrix (Z.to_nat n_actions))
          | Some a => raise_if (negb (Z.eqb (Z.of_nat (length a)) n_actions)) ValueError ;;; Ok a
          end ;;
  Ok (mkEnvSim n_actions reward_function delay_function expected actx).

(** [calc_expected_reward].  Models: simulator.py 175-188. *)
Definition env_expected (env : env_sim) (context : arr2) : res arr2 :=
  match es_reward_function env with
  | None => Ok (contextfree_expected_reward (es_expected env) context)
  | Some f => f context (es_action_context env)
  end.

(** [random_.binomial(n=1, p=expected_reward)]: every entry must be a number in [0, 1]; [flip i a p] is the draw for
    probability p.  Models: simulator.py 190-193. *)
Definition env_bernoulli (flip : nat -> nat -> R -> bool) (p : arr2) : res arr2 :=
  raise_if (existsb (existsb (fun x => negb (nle (Fin 0) x && nle x (Fin 1)))) p) ValueError ;;;
  Ok (map (fun q => map (fun s => Fin (if flip (fst q) (fst s) (match snd s with Fin v => v | _ => 0 end) then 1 else 0))
                        (combine (seq 0 (length (snd q))) (snd q)))
          (combine (seq 0 (length p)) p)).

(** [sample_reward] on an array of [ndim] dimensions.  Models: simulator.py 195-214. *)
Definition env_sample_reward (env : env_sim) (flip : nat -> nat -> R -> bool) (ndim : nat) (context : arr2) : res arr2 :=
  raise_if (negb (Nat.eqb ndim 2)) ValueError ;;;
  p <- env_expected env context ;;
  env_bernoulli flip p.

(** [next_bandit_round_batch]; [context] is what [random_.normal] drew.  Result: the rounds, the expected rewards and
    the action contexts.  Models: simulator.py 216-224, 248-284. *)
Definition env_next_batch (env : env_sim) (flip : nat -> nat -> R -> bool) (n_rounds : Z) (context : arr2) : res (brounds * arr2 * arr2) :=
  check_scalar_Z n_rounds (Some 1%Z) None ;;;
  p <- env_expected env context ;;
  rewards <- env_bernoulli flip p ;;
  delays <- match es_delay_function env with
            | None => Ok None
            | Some f => d <- f (length context) p ;; Ok (Some d)
            end ;;
  Ok (mkBrounds (Z.to_nat n_rounds) context rewards delays 0, p, es_action_context env).

(** [next_bandit_round]: the first rows; the action context handed out is that of action 0 alone.
    Models: simulator.py 216-246. *)
Definition env_next (env : env_sim) (flip : nat -> nat -> R -> bool) (context : arr2) : res (bround * arr1 * arr1) :=
  p <- env_expected env context ;;
  rewards <- env_bernoulli flip p ;;
  delays <- match es_delay_function env with
            | None => Ok None
            | Some f => d <- f 1%nat p ;; Ok (Some d)
            end ;;
  rd <- next_bandit_round context rewards delays ;;
  a0 <- np_get (es_action_context env) 0 ;;
  p0 <- np_get p 0 ;;
  Ok (rd, p0, a0).
