(** * M_Sim: model of obp/simulator/simulator.py and obp/simulator/replay.py.

    A policy object is a state of an arbitrary type (random generator included) with its two methods, which
    may raise and may have changed the state when they do.  Environment rounds are inputs. *)

From Coq Require Import Reals List ZArith Bool.
From Verif Require Import Num NpList M_Utils M_Feedback.
Import ListNotations.
Open Scope R_scope.

(** Arrays of rank 1, 2 and 3, and [np.expand_dims(x, axis=0)]. *)
(** Models: simulator/simulator.py 370-381, 425-430. *)
Inductive nd : Type := Vec (x : arr1) | Mat (x : arr2) | Cube (x : arr3) | Rank4 (x : list arr3).
(** Models: simulator/simulator.py 375, 429. *)
Definition expand0 (x : nd) : nd :=
  match x with Vec v => Mat [v] | Mat m => Cube [m] | Cube c => Rank4 [c] | Rank4 q => Rank4 q end.

(** policy_type.py 10-24: the policy types; [select_action] takes a context only for contextual policies. *)
Inductive policy_type : Type := ContextFree | Contextual | Offline.
Record policy (P : Type) : Type := mkPolicy {
  pol_type : policy_type;
  pol_select : P -> option nd -> P * res (list Z);
  pol_update : P -> Z -> num -> option nd -> P * res unit }.
Arguments pol_type {P}.
Arguments pol_select {P}.
Arguments pol_update {P}.
Arguments mkPolicy {P}.

(** simulator.py 32-39: [BanditRound]; the attributes the simulator does not read are left out. *)
Record bround : Type := mkBround { br_context : nd; br_rewards : arr1; br_delays : option (list R) }.

(** simulator.py 42-80: [BanditRounds] with its iteration index ([None] before the first [iter]). *)
Record brounds : Type := mkBrounds {
  bs_n_rounds : nat;
  bs_context : arr2;
  bs_rewards : arr2;
  bs_delays : option (list (list R));
  bs_idx : nat }.

(** simulator.py 67-69: [__iter__]. *)
Definition bs_iter (b : brounds) : brounds :=
  mkBrounds (bs_n_rounds b) (bs_context b) (bs_rewards b) (bs_delays b) 0.

(** simulator.py 52-65: [_get_bandit_round]. *)
Definition bs_get (b : brounds) : res bround :=
  d <- match bs_delays b with None => Ok None | Some d => x <- np_get d (Z.of_nat (bs_idx b)) ;; Ok (Some x) end ;;
  c <- np_get (bs_context b) (Z.of_nat (bs_idx b)) ;;
  r <- np_get (bs_rewards b) (Z.of_nat (bs_idx b)) ;;
  Ok (mkBround (Vec c) r d).

(** simulator.py 71-77: [__next__]; [None] is StopIteration. *)
Definition bs_next (b : brounds) : brounds * option (res bround) :=
  if Nat.ltb (bs_idx b) (bs_n_rounds b) then
    match bs_get b with
    | Err e => (b, Some (Err e))
    | Ok r => (mkBrounds (bs_n_rounds b) (bs_context b) (bs_rewards b) (bs_delays b) (S (bs_idx b)), Some (Ok r))
    end
  else (b, None).

(** The rounds a [for] loop gets after [iter]; [fuel] at least the number of rounds. *)
(** Models: simulator/simulator.py 43-81. *)
Fixpoint bs_rounds (fuel : nat) (b : brounds) : res (list bround) :=
  match fuel with
  | O => Ok []
  | S k => match bs_next b with
           | (_, None) => Ok []
           | (_, Some (Err e)) => Err e
           | (b', Some (Ok r)) => rest <- bs_rounds k b' ;; Ok (r :: rest)
           end
  end.
(** Models: simulator/simulator.py 383-391. *)
Definition bs_for (b : brounds) : res (list bround) := bs_rounds (S (bs_n_rounds b)) (bs_iter b).

(** simulator.py 287-302: [BanditPolicySimulator].  [sm_lookup] is the defaultdict in insertion order; its
    keys are delay + round number. *)
Record sim (P : Type) : Type := mkSim {
  sm_policy : P;
  sm_lookup : list (R * list nat);
  sm_actions : list Z;
  sm_rewards : list num;
  sm_truth : list arr1;
  sm_contexts : list nd;
  sm_total : num;
  sm_played : nat }.
Arguments mkSim {P}.
Arguments sm_policy {P}.
Arguments sm_lookup {P}.
Arguments sm_actions {P}.
Arguments sm_rewards {P}.
Arguments sm_truth {P}.
Arguments sm_contexts {P}.
Arguments sm_total {P}.
Arguments sm_played {P}.

(** simulator.py 320-325: [__post_init__]. *)
Definition sim_new {P : Type} (p : P) : sim P := mkSim p [] [] [] [] [] (Fin 0) 0.

Definition set_policy {P : Type} (s : sim P) (p : P) : sim P :=
  mkSim p (sm_lookup s) (sm_actions s) (sm_rewards s) (sm_truth s) (sm_contexts s) (sm_total s) (sm_played s).
Definition set_lookup {P : Type} (s : sim P) (l : list (R * list nat)) : sim P :=
  mkSim (sm_policy s) l (sm_actions s) (sm_rewards s) (sm_truth s) (sm_contexts s) (sm_total s) (sm_played s).

(** Operations of the defaultdict(list): [d[k].append(v)], [d.get(k, [])], [d.pop(k, None)]. *)
(** Models: simulator/simulator.py 360. *)
Fixpoint lk_append (l : list (R * list nat)) (k : R) (v : nat) : list (R * list nat) :=
  match l with
  | [] => [(k, [v])]
  | (k', vs) :: t => if Reqb k' k then (k', vs ++ [v]) :: t else (k', vs) :: lk_append t k v
  end.
(** Models: simulator/simulator.py 393-403. *)
Fixpoint lk_get (l : list (R * list nat)) (k : R) : list nat :=
  match l with
  | [] => []
  | (k', vs) :: t => if Reqb k' k then vs else lk_get t k
  end.
(** Models: simulator/simulator.py 403. *)
Fixpoint lk_pop (l : list (R * list nat)) (k : R) : list (R * list nat) :=
  match l with
  | [] => []
  | (k', vs) :: t => if Reqb k' k then t else (k', vs) :: lk_pop t k
  end.

(** simulator.py 370-381: [select_action]. *)
Definition sim_select_action {P : Type} (pol : policy P) (p : P) (context : nd) : P * res Z :=
  match pol_type pol with
  | ContextFree => let r := pol_select pol p None in (fst r, l <- snd r ;; np_get l 0)
  | Contextual => let r := pol_select pol p (Some (expand0 context)) in (fst r, l <- snd r ;; np_get l 0)
  | Offline => (p, Err RuntimeError)
  end.

(** simulator.py 409-430: [update_policy]; nothing happens for other policy types. *)
Definition sim_update_policy {P : Type} (pol : policy P) (p : P) (context : nd) (action : Z) (reward : num)
  : P * res unit :=
  match pol_type pol with
  | ContextFree => pol_update pol p action reward None
  | Contextual => pol_update pol p action reward (Some (expand0 context))
  | Offline => (p, Ok tt)
  end.

(** simulator.py 396-401: the loop of [delayed_update_policy]. *)
Fixpoint deliver {P : Type} (pol : policy P) (s : sim P) (available : list nat) : sim P * res unit :=
  match available with
  | [] => (s, Ok tt)
  | t :: rest =>
      match a <- np_get (sm_actions s) (Z.of_nat t) ;;
            c <- np_get (sm_contexts s) (Z.of_nat t) ;;
            r <- np_get (sm_rewards s) (Z.of_nat t) ;; Ok (a, c, r) with
      | Err e => (s, Err e)
      | Ok (a, c, r) =>
          let u := sim_update_policy pol (sm_policy s) c a r in
          match snd u with
          | Err e => (set_policy s (fst u), Err e)
          | Ok _ => deliver pol (set_policy s (fst u)) rest
          end
      end
  end.

(** simulator.py 393-403: [delayed_update_policy]; an exception skips the [pop]. *)
Definition delayed_update_policy {P : Type} (pol : policy P) (s : sim P) (available : list nat) (key : R)
  : sim P * res unit :=
  let d := deliver pol s available in
  match snd d with
  | Err e => (fst d, Err e)
  | Ok _ => (set_lookup (fst d) (lk_pop (sm_lookup (fst d)) key), Ok tt)
  end.

(** simulator.py 327-334, 342-368: [step(bandit_round)]. *)
Definition sim_step {P : Type} (pol : policy P) (s : sim P) (rd : bround) : sim P * res unit :=
  let truth := sm_truth s ++ [br_rewards rd] in
  let contexts := sm_contexts s ++ [br_context rd] in
  let sel := sim_select_action pol (sm_policy s) (br_context rd) in
  let p1 := fst sel in
  match snd sel with
  | Err e => (mkSim p1 (sm_lookup s) (sm_actions s) (sm_rewards s) truth contexts (sm_total s) (sm_played s), Err e)
  | Ok a =>
      let actions := sm_actions s ++ [a] in
      match np_get (br_rewards rd) a with
      | Err e => (mkSim p1 (sm_lookup s) actions (sm_rewards s) truth contexts (sm_total s) (sm_played s), Err e)
      | Ok r =>
          let s1 := mkSim p1 (sm_lookup s) actions (sm_rewards s ++ [r]) truth contexts
                          (nadd (sm_total s) r) (sm_played s) in
          let r2 :=
            match br_delays rd with
            | None => let u := sim_update_policy pol p1 (br_context rd) a r in (set_policy s1 (fst u), snd u)
            | Some delays =>
                match np_get delays a with
                | Err e => (s1, Err e)
                | Ok d =>
                    let s2 := set_lookup s1 (lk_append (sm_lookup s1) (d + INR (sm_played s1)) (sm_played s1)) in
                    delayed_update_policy pol s2 (lk_get (sm_lookup s2) (INR (sm_played s2))) (INR (sm_played s2))
                end
            end in
          match snd r2 with
          | Err e => (fst r2, Err e)
          | Ok _ =>
              let s3 := fst r2 in
              (mkSim (sm_policy s3) (sm_lookup s3) (sm_actions s3) (sm_rewards s3) (sm_truth s3) (sm_contexts s3)
                     (sm_total s3) (S (sm_played s3)), Ok tt)
          end
      end
  end.

(** simulator.py 383-391: [steps] over a list of rounds (given, or drawn from the environment). *)
Fixpoint sim_steps {P : Type} (pol : policy P) (s : sim P) (rounds : list bround) : sim P * res unit :=
  match rounds with
  | [] => (s, Ok tt)
  | rd :: rest =>
      let r := sim_step pol s rd in
      match snd r with Err e => (fst r, Err e) | Ok _ => sim_steps pol (fst r) rest end
  end.

(** simulator.py 405-407: [clear_delayed_queue]; the loop runs over a copy of the dict. *)
Fixpoint clear_loop {P : Type} (pol : policy P) (s : sim P) (items : list (R * list nat)) : sim P * res unit :=
  match items with
  | [] => (s, Ok tt)
  | (k, available) :: rest =>
      let r := delayed_update_policy pol s available k in
      match snd r with Err e => (fst r, Err e) | Ok _ => clear_loop pol (fst r) rest end
  end.
Definition clear_delayed_queue {P : Type} (pol : policy P) (s : sim P) : sim P * res unit :=
  clear_loop pol s (sm_lookup s).

(** simulator.py 226-246: the round [step()] asks the environment for: the context is a (1, dim) array.
    [context], [rewards] and [delays] are what the random generator and the user functions returned. *)
Definition next_bandit_round (context : arr2) (rewards : arr2) (delays : option (list (list R))) : res bround :=
  d <- match delays with None => Ok None | Some ds => x <- np_get ds 0 ;; Ok (Some x) end ;;
  r <- np_get rewards 0 ;;
  Ok (mkBround (Mat context) r d).

(** simulator.py 171-188: [calc_expected_reward] without a reward function ([np.tile]). *)
Definition contextfree_expected_reward (expected : arr1) (context : arr2) : arr2 := map (fun _ => expected) context.

(** simulator.py 483-511: one replica of the loop of [calc_ground_truth_policy_value]; [sampler] is the
    reward sampler with its state.  A policy of another type leaves [selected_actions] unbound. *)
Fixpoint gt_rounds {P S : Type} (pol : policy P) (sampler : S -> arr1 -> Z -> S * res num)
    (rounds : list (Z * arr1 * arr1)) (p : P) (st : S) (cum : num) : S * res num :=
  match rounds with
  | [] => (st, Ok cum)
  | (position, context, expected) :: rest =>
      match pol_type pol with
      | Offline => (st, Err NameError)
      | ty =>
          let ctx := match ty with Contextual => Some (Mat [context]) | _ => None end in
          let sel := pol_select pol p ctx in
          match l <- snd sel ;; np_get l position with
          | Err e => (st, Err e)
          | Ok a =>
              let sm := sampler st context a in
              match r <- snd sm ;; e <- np_get expected a ;; Ok (r, e) with
              | Err e => (fst sm, Err e)
              | Ok (r, e) =>
                  let u := pol_update pol (fst sel) a r ctx in
                  match snd u with
                  | Err x => (fst sm, Err x)
                  | Ok _ => gt_rounds pol sampler rest (fst u) (fst sm) (nadd cum e)
                  end
              end
          end
      end
  end.

(** simulator.py 481-482: the outer loop; every replica starts from [deepcopy(policy)], random generator
    included. *)
Fixpoint gt_sims {P S : Type} (pol : policy P) (sampler : S -> arr1 -> Z -> S * res num)
    (rounds : list (Z * arr1 * arr1)) (p : P) (n_sim : nat) (st : S) (cum : num) : res num :=
  match n_sim with
  | O => Ok cum
  | S k =>
      let r := gt_rounds pol sampler rounds p st cum in
      c <- snd r ;; gt_sims pol sampler rounds p k (fst r) c
  end.

(** The keys of a bandit feedback dictionary read by the two functions below ([None]: key absent, inner
    [None] for position: the value None). *)
(** Models: simulator/simulator.py 433-513. *)
Record feedback : Type := mkFeedback {
  fb_n_rounds : option Z;
  fb_context : option arr2;
  fb_action : option (list Z);
  fb_position : option (option (list Z));
  fb_reward : option arr1;
  fb_expected_reward : option arr2;
  fb_pscore : option arr1 }.

(** Models: simulator/simulator.py 433-513. *)
Definition has {A : Type} (o : option A) : res A := match o with Some x => Ok x | None => Err RuntimeError end.

(** Division of the accumulated Python float by an int: ZeroDivisionError while it is still the initial
    0.0 (no round added a numpy float), numpy semantics otherwise. *)
(** Models: simulator/simulator.py 513. *)
Definition gt_divide (touched : bool) (cum : num) (k : Z) : res num :=
  if (negb touched && Z.eqb k 0)%bool then Err ZeroDivisionError else Ok (ndiv cum (Fin (IZR k))).

(** simulator.py 433-513: [calc_ground_truth_policy_value].  [position = None] makes [zip] raise TypeError
    (only if the loop runs); [n_rounds] is read at the end. *)
Definition calc_ground_truth_policy_value {P S : Type} (pol : policy P)
    (sampler : S -> arr1 -> Z -> S * res num) (fb : feedback) (p : P) (st : S) (n_sim : nat) : res num :=
  action <- has (fb_action fb) ;;
  position <- has (fb_position fb) ;;
  reward <- has (fb_reward fb) ;;
  er <- has (fb_expected_reward fb) ;;
  context <- has (fb_context fb) ;;
  check_bandit_feedback_inputs context action reward (Some er) position None None ;;;
  cum <- match n_sim, position with
         | O, _ => Ok (Fin 0)
         | _, None => Err TypeError
         | _, Some pos => gt_sims pol sampler (combine (combine pos context) er) p n_sim st (Fin 0)
         end ;;
  match fb_n_rounds fb with
  | None => Err KeyError
  | Some n => gt_divide (negb (Nat.eqb n_sim 0)) cum (Z.of_nat n_sim * n)
  end.

(** replay.py 31-57: [run_bandit_replay] up to the loop.  The file imports the module tqdm under the name
    tqdm and calls it, which raises TypeError; before that [position = None] has been replaced in the
    caller's dictionary.  Result: the dictionary, the policy state and the outcome. *)
Definition run_bandit_replay {P : Type} (pol : policy P) (fb : feedback) (p : P) : feedback * P * res arr3 :=
  match action <- has (fb_action fb) ;;
        position <- has (fb_position fb) ;;
        reward <- has (fb_reward fb) ;;
        pscore <- has (fb_pscore fb) ;;
        context <- has (fb_context fb) ;;
        check_bandit_feedback_inputs context action reward None position (Some pscore) None ;;;
        Ok (action, position) with
  | Err e => (fb, p, Err e)
  | Ok (action, position) =>
      let fb' := match position with
                 | Some _ => fb
                 | None => mkFeedback (fb_n_rounds fb) (fb_context fb) (fb_action fb)
                             (Some (Some (zzeros (length action)))) (fb_reward fb) (fb_expected_reward fb) (fb_pscore fb)
                 end in
      match fb_n_rounds fb with
      | None => (fb', p, Err KeyError)
      | Some _ => (fb', p, Err TypeError)
      end
  end.

(** replay.py 59-82: the loop that would run if [tqdm] were the function: the policy is updated only on
    rounds where the action at the logged position is the logged action. *)
Fixpoint replay_rounds {P : Type} (pol : policy P) (rounds : list (Z * num * Z * arr1)) (p : P)
    (acc : list (list Z)) : P * res (list (list Z)) :=
  match rounds with
  | [] => (p, Ok acc)
  | (action, reward, position, context) :: rest =>
      match pol_type pol with
      | Offline => (p, Err NameError)
      | ty =>
          let ctx := match ty with Contextual => Some (Mat [context]) | _ => None end in
          let sel := pol_select pol p ctx in
          match snd sel with
          | Err e => (fst sel, Err e)
          | Ok l =>
              match np_get l position with
              | Err e => (fst sel, Err e)
              | Ok a =>
                  if Z.eqb action a then
                    let u := pol_update pol (fst sel) action reward ctx in
                    match snd u with
                    | Err e => (fst u, Err e)
                    | Ok _ => replay_rounds pol rest (fst u) (acc ++ [l])
                    end
                  else replay_rounds pol rest (fst sel) (acc ++ [l])
              end
          end
      end
  end.
